(** * P_Trunc: C107. What a merge flip that truncates does to the output of an adaptive model:
    exactly (the pairs are replaced by their truncated singular value decompositions) and as a bound. *)
From Coq Require Import Reals Lra.
From Verif Require Import Base Scalars Tensor Spec LinAlg Contractables ContrProofs Utils UtilsSpec SvdProofs SvdFinal P_Svd TorchMps TmSpec TmProofs TmFinal Adaptive AdMerge AdKinds AdSpec AdUnmerge AdFlip AdState AdCall AdHealthy P_Ad AdExact P_AdExact Crash AdCrash FrobNorm.

(** *** specification *)
(** the cores of a merged list, one entry for each pair of merged cores or single core *)
Definition parts (l : list (module R_cring)) : list (option pair_type * tensor R_ops) :=
  flat_map (fun m => match m with
    | OutputSite t | InputSite t => [(None, t)]
    | MergedInput t => map (fun s => (Some TwoInputs, sel0 t s)) (seq 0 (size 0 t))
    | MergedOutput t lo => [(Some (if lo then OutputInput else InputOutput), t)]
    | InputRegion _ _ _ => []
    end) l.
(** Euclidean norm of all entries *)
Definition frob (t : tensor R_ops) : R := sqrt (rsum (map (fun idx => (get t idx * get t idx)%R) (all_idx (shp t)))).
(** Euclidean norm of a feature vector *)
Definition feature_norm (F : nat) (v : nat -> R) : R := sqrt (bsum (S := R_ops) F (fun i => (v i * v i)%R)).
(** the square of the norm of the singular values that a flip drops: all but the leading d,
    where d counts how many of the first D are not below the cutoff *)
Definition dropped (cutoff : R) (D n : nat) (S : nat -> R) : R :=
  bsum (S := R_ops) n (fun k => if k <? count_ge cutoff S (Nat.min D n) then 0%R else (S k * S k)%R).
(** [e] is the norm of what a flip drops from the pair (0 for a single core) *)
Definition drop_norm svd (D F O : nat) (cutoff : R) (q : option pair_type * tensor R_ops) (e : R) : Prop :=
  match fst q with
  | None => e = 0%R
  | Some p => exists S, spectrum svd D F O p (snd q) S /\ e = sqrt (dropped cutoff D (nsv D F O p) (fun k => get S [k]))
  end.
(** sum over i of e_i times the product of all a_j with j <> i *)
Fixpoint first_order (l : list (R * R)) : R :=
  match l with [] => 0%R | (a, e) :: r => (e * fold_right Rmult 1%R (map fst r) + a * first_order r)%R end.

(** [q'] is what a flip makes of [q]: a single core stays; a pair keeps its shape, its distance from the old pair is
    the norm of the dropped singular values, and its norm does not grow *)
Definition replaced svd (D F O : nat) (cutoff : R) (q q' : option pair_type * tensor R_ops) : Prop :=
  fst q' = fst q /\ shp (snd q') = shp (snd q) /\
  match fst q with
  | None => snd q' = snd q
  | Some p => drop_norm svd D F O cutoff q (frob (mkT (shp (snd q)) (fun i => (get (snd q) i - get (snd q') i)%R))) /\ (frob (snd q') <= frob (snd q))%R
  end.

(** *** lemmas *)
Lemma prods_fold l : prods l = fold_right Rmult 1%R (map fst l).
Proof. induction l as [|[a e] l IH]; [reflexivity|]. cbn [prods map fold_right fst]. rewrite IH. reflexivity. Qed.
Lemma spread_first l : spread l = first_order l.
Proof. induction l as [|[a e] l IH]; [reflexivity|]. cbn [spread first_order]. rewrite IH, prods_fold. reflexivity. Qed.
Definition scl (q : R * R * R) : R * R := (fst (fst q) * snd q, snd (fst q) * snd q)%R.
Lemma prods_scale l : prods (map scl l) = (prods (map fst l) * fold_right Rmult 1%R (map snd l))%R.
Proof. induction l as [|[[a e] c] l IH]; cbn [map prods fold_right scl fst snd]; [lra|]. rewrite IH. ring. Qed.
Lemma spread_scale l : spread (map scl l) = (spread (map fst l) * fold_right Rmult 1%R (map snd l))%R.
Proof. induction l as [|[[a e] c] l IH]; cbn [map spread fold_right scl fst snd]; [lra|]. rewrite IH, prods_scale. ring. Qed.

Section Pair.
  Notation T := (tensor R_ops).
  Variable svd : T -> T * T * T.
  Variables D F O : nat.
  Variable cutoff : R.
  Notation sizes := (sizes D F O).
  Notation nsv := (nsv D F O).
  (** a tensor whose entries are a weighted sum of the singular triples of t *)
  Lemma weighted p (t : T) U S V (x : list nat -> R) (w : nat -> R) :
    svd_call svd t sizes (split_string p) (axes p) (axes1 p) (axes2 p) "u" U S V ->
    (forall sg, within_sizes sizes sg (axes p) -> x (map sg (axes p)) = bsum (S := R_ops) (nsv p)
       (fun k => (get U [position (map sizes (row_axes p)) (map sg (row_axes p)); k] * w k * get V [position (map sizes (col_axes p)) (map sg (col_axes p)); k])%R)) ->
    sq2 (all_idx (shp t)) x = bsum (S := R_ops) (nsv p) (fun k => (w k * w k)%R).
  Proof.
    intros [Hl HT HU HS HV Hsvd] Hx.
    assert (Ra : remove ascii_dec "u"%char (axes1 p) = row_axes p) by (destruct p; reflexivity).
    assert (Rb : remove ascii_dec "u"%char (axes2 p) = col_axes p) by (destruct p; reflexivity).
    assert (Hk : Nat.min (volume (map sizes (row_axes p))) (volume (map sizes (col_axes p))) = nsv p).
    { destruct p; cbn; rewrite ?Nat.add_0_r; [lia|reflexivity|reflexivity]. }
    destruct (matrix_exists t sizes _ _ _ _ _ Hl HT) as (A0 & HA0). destruct (Hsvd A0 HA0) as [_ Hd]. rewrite Ra, Rb in Hd. 
    pose proof (frob_sum (volume (map sizes (row_axes p))) (volume (map sizes (col_axes p))) (nsv p) (fun i k => get U [i; k]) (fun j k => get V [j; k]) w) as Fs.
    rewrite <- Fs.
    2:{ intros a b Ha Hb. apply (svd_orth_U _ _ _ _ _ _ Hd); rewrite Hk; assumption. }
    2:{ intros a b Ha Hb. apply (svd_orth_V _ _ _ _ _ _ Hd); rewrite Hk; assumption. }
    pose proof (sum_entries t sizes (axes p) (axes1 p) (axes2 p) "u"%char (split_string p) Hl HT) as Se. rewrite Ra, Rb in Se. rewrite <- (Se (fun i j => (_ * _)%R)).
    unfold sq2. f_equal. apply map_ext_in. intros idx Hi. apply all_idx_spec in Hi. rewrite HT in Hi.
    assert (ND : NoDup (axes p)) by apply (lab_nodup_init _ _ _ _ _ Hl).
    assert (Hsg : within_sizes sizes (reading (axes p) idx) (axes p)) by (apply reading_within; assumption).
    assert (E : x idx = x (map (reading (axes p) idx) (axes p))) by (rewrite (reading_map (axes p) idx ND); [reflexivity|]; rewrite <- (map_length sizes (axes p)); apply valid_length; exact Hi).
    rewrite E, (Hx _ Hsg). reflexivity.
  Qed.
  Lemma trunc_sum (f : nat -> R) d n : d <= n -> bsum (S := R_ops) d f = bsum (S := R_ops) n (fun k => if k <? d then f k else 0%R).
  Proof. intros H. symmetry. apply bsum_trunc. exact H. Qed.
  Lemma truncated_norms p (t t' : T) : truncated svd D F O cutoff p t t' -> exists S, spectrum svd D F O p t S /\
    nrm (all_idx (shp t)) (fun i => (get t i - get t' i)%R) = sqrt (dropped cutoff D (nsv p) (fun k => get S [k])) /\
    (nrm (all_idx (shp t)) (get t') <= frob t)%R.
  Proof.
    intros (U & S & V & H & Hs & Hg). exists S. split; [exists U, V; exact H|].
    set (d := count_ge cutoff (fun k => get S [k]) (Nat.min D (nsv p))) in *.
    assert (Hd : d <= nsv p) by (pose proof (count_ge_le cutoff (fun k => get S [k]) (Nat.min D (nsv p))); unfold d; lia).
    assert (Et : forall sg, within_sizes sizes sg (axes p) -> get t (map sg (axes p)) = bsum (S := R_ops) (nsv p)
       (fun k => (get U [position (map sizes (row_axes p)) (map sg (row_axes p)); k] * get S [k] * get V [position (map sizes (col_axes p)) (map sg (col_axes p)); k])%R)).
    { intros sg Hsg. destruct H as [Hl HT HU HS HV Hsvd]. pose proof (entry_sum t sizes _ _ _ _ _ Hl HT U S V (fun A HA => proj2 (Hsvd A HA)) sg Hsg) as E.
      assert (Ra : remove ascii_dec "u"%char (axes1 p) = row_axes p) by (destruct p; reflexivity).
      assert (Rb : remove ascii_dec "u"%char (axes2 p) = col_axes p) by (destruct p; reflexivity).
      rewrite Ra, Rb in E. assert (Hk : Nat.min (volume (map sizes (row_axes p))) (volume (map sizes (col_axes p))) = nsv p).
      { destruct p; cbn; rewrite ?Nat.add_0_r; [lia|reflexivity|reflexivity]. }
      rewrite Hk in E. exact E. }
    pose proof (weighted p t U S V (get t) (fun k => get S [k]) H Et) as W1.
    assert (W2 : sq2 (all_idx (shp t)) (get t') = bsum (S := R_ops) (nsv p) (fun k => ((if k <? d then get S [k] else 0) * (if k <? d then get S [k] else 0))%R)).
    { apply (weighted p t U S V (get t') (fun k => if k <? d then get S [k] else 0%R) H). intros sg Hsg. rewrite (Hg sg Hsg), (trunc_sum _ d (nsv p) Hd). apply (bsum_ext (S := R_ops)). intros k Hk.
      destruct (k <? d); match goal with |- ?x = ?y => change (@eq R x y) end; ring. }
    assert (W3 : sq2 (all_idx (shp t)) (fun i => (get t i - get t' i)%R) = bsum (S := R_ops) (nsv p) (fun k => ((if k <? d then 0 else get S [k]) * (if k <? d then 0 else get S [k]))%R)).
    { apply (weighted p t U S V (fun i => (get t i - get t' i)%R) (fun k => if k <? d then 0%R else get S [k]) H). intros sg Hsg. rewrite (Et sg Hsg), (Hg sg Hsg), (trunc_sum _ d (nsv p) Hd). 
      match goal with |- (?a - ?b)%R = ?d => assert (X : a = (b + d)%R); [|lra] end.
      symmetry. etransitivity; [symmetry; apply (bsum_add R_cring)|]. apply (bsum_ext (S := R_ops)). intros k Hk. cbn [sadd R_ops R_cring rops].
      destruct (k <? d); match goal with |- ?x = ?y => change (@eq R x y) end; ring. }
    split.
    - unfold nrm. rewrite W3. f_equal. apply (bsum_ext (S := R_ops)). intros k Hk. fold d. destruct (k <? d); [|reflexivity]. match goal with |- ?x = ?y => change (@eq R x y) end; ring.
    - change (frob t) with (nrm (all_idx (shp t)) (get t)). unfold nrm. apply sqrt_le_1_alt. rewrite W1, W2. apply bsum_mono. intros k Hk. destruct (k <? d); [lra|]. pose proof (Rle_0_sqr (get S [k])) as Q. unfold Rsqr in Q. lra.
  Qed.
End Pair.

(** the matrices of the cores are bounded by the norms *)
Section Cores.
  Variables D F O : nat.
  Notation vn := (feature_norm F).
  Lemma vn_nonneg v : (0 <= vn v)%R. Proof. apply sqrt_pos. Qed.
  Lemma vn_sq v : (vn v * vn v)%R = bsum (S := R_ops) F (fun i => (v i * v i)%R).
  Proof. apply sqrt_sqrt. apply bsum_nonneg. intros. apply Rle_0_sqr. Qed.
  Lemma sq2_4 a b c d (x : list nat -> R) : sq2 (all_idx [a; b; c; d]) x =
    bsum (S := R_ops) a (fun i => bsum (S := R_ops) b (fun j => bsum (S := R_ops) c (fun k => bsum (S := R_ops) d (fun l => (x [i; j; k; l] * x [i; j; k; l])%R)))).
  Proof.
    unfold sq2. rewrite rsum_idx. apply (bsum_ext (S := R_ops)). intros i _. rewrite rsum_idx. apply (bsum_ext (S := R_ops)). intros j _. rewrite rsum_idx. apply (bsum_ext (S := R_ops)). intros k _.
    rewrite rsum_idx. apply (bsum_ext (S := R_ops)). intros l _. cbn [all_idx map rsum fold_right]. match goal with |- ?x = ?y => change (@eq R x y) end. ring.
  Qed.
  Lemma sq2_3 a b c (x : list nat -> R) : sq2 (all_idx [a; b; c]) x =
    bsum (S := R_ops) a (fun i => bsum (S := R_ops) b (fun j => bsum (S := R_ops) c (fun k => (x [i; j; k] * x [i; j; k])%R))).
  Proof.
    unfold sq2. rewrite rsum_idx. apply (bsum_ext (S := R_ops)). intros i _. rewrite rsum_idx. apply (bsum_ext (S := R_ops)). intros j _. rewrite rsum_idx. apply (bsum_ext (S := R_ops)). intros k _.
    cbn [all_idx map rsum fold_right]. match goal with |- ?x = ?y => change (@eq R x y) end. ring.
  Qed.
  Lemma bound_by (M : nat -> nat -> R) X (x : list nat -> R) c : (0 <= c)%R -> (msq D M <= sq2 X x * (c * c))%R -> (mf D M <= nrm X x * c)%R.
  Proof.
    intros Hc H. apply mf_le; [apply Rmult_le_pos; [apply nrm_nonneg|exact Hc]|]. replace (nrm X x * c * (nrm X x * c))%R with (nrm X x * nrm X x * (c * c))%R by ring. rewrite nrm_sq. exact H.
  Qed.
  Definition con2 (x : list nat -> R) (v w : nat -> R) (a b : nat) : R := bsum (S := R_cring) F (fun i => bsum (S := R_cring) F (fun j => (x [a; b; i; j] * (v i * w j))%R)).
  Lemma con2_bound x v w : (mf D (con2 x v w) <= nrm (all_idx [D; D; F; F]) x * (vn v * vn w))%R.
  Proof.
    apply bound_by; [apply Rmult_le_pos; apply vn_nonneg|]. rewrite sq2_4. unfold msq. rewrite bsum_scale_r. apply bsum_mono. intros a Ha. rewrite bsum_scale_r. apply bsum_mono. intros b Hb.
    set (y := fun i => bsum (S := R_ops) F (fun j => (x [a; b; i; j] * w j)%R)).
    assert (E : con2 x v w a b = bsum (S := R_ops) F (fun i => (y i * v i)%R)).
    { apply (bsum_ext (S := R_ops)). intros i Hi. unfold y. rewrite bsum_scale_r. apply (bsum_ext (S := R_ops)). intros j Hj. match goal with |- ?x = ?y => change (@eq R x y) end. ring. }
    rewrite E. eapply Rle_trans; [apply (dot_sq F y v)|]. rewrite <- (vn_sq v).
    assert (Q : forall B G V W : R, (B <= G * (W * W))%R -> (B * (V * V) <= G * (V * W * (V * W)))%R).
    { intros B G V W Q. replace (G * (V * W * (V * W)))%R with (G * (W * W) * (V * V))%R by ring. apply Rmult_le_compat_r; [apply Rle_0_sqr|exact Q]. }
    apply Q. rewrite vn_sq, bsum_scale_r. apply bsum_mono. intros i Hi. exact (dot_sq F (fun j => x [a; b; i; j]) w).
  Qed.
  Definition con1 (x : list nat -> R) (v : nat -> R) (a b : nat) : R := bsum (S := R_cring) F (fun i => (x [a; b; i] * v i)%R).
  Lemma con1_bound x v : (mf D (con1 x v) <= nrm (all_idx [D; D; F]) x * vn v)%R.
  Proof.
    apply bound_by; [apply vn_nonneg|]. rewrite sq2_3. unfold msq. rewrite bsum_scale_r. apply bsum_mono. intros a Ha. rewrite bsum_scale_r. apply bsum_mono. intros b Hb.
    rewrite vn_sq. exact (dot_sq F (fun i => x [a; b; i]) v).
  Qed.
  Lemma con1o_bound x v o : o < O -> (mf D (con1 (fun idx => x (o :: idx)) v) <= nrm (all_idx [O; D; D; F]) x * vn v)%R.
  Proof.
    intros Ho. apply bound_by; [apply vn_nonneg|]. rewrite sq2_4.
    eapply Rle_trans; [|apply Rmult_le_compat_r; [apply Rmult_le_pos; apply vn_nonneg|]; refine (bsum_term O (fun o => bsum (S := R_ops) D (fun j => bsum (S := R_ops) D (fun k => bsum (S := R_ops) F (fun l => (x [o; j; k; l] * x [o; j; k; l])%R)))) o _ Ho)].
    2:{ intros. apply bsum_nonneg. intros. apply bsum_nonneg. intros. apply bsum_nonneg. intros. apply Rle_0_sqr. }
    cbn beta. unfold msq. rewrite bsum_scale_r. apply bsum_mono. intros a Ha. rewrite bsum_scale_r. apply bsum_mono. intros b Hb.
    rewrite vn_sq. exact (dot_sq F (fun i => x [o; a; b; i]) v).
  Qed.
  Lemma con0_bound x o : o < O -> (mf D (fun a b => x [o; a; b]) <= nrm (all_idx [O; D; D]) x)%R.
  Proof.
    intros Ho. apply mf_le; [apply nrm_nonneg|]. rewrite nrm_sq, sq2_3.
    eapply Rle_trans; [|refine (bsum_term O (fun o => bsum (S := R_ops) D (fun j => bsum (S := R_ops) D (fun k => (x [o; j; k] * x [o; j; k])%R))) o _ Ho)].
    2:{ intros. apply bsum_nonneg. intros. apply bsum_nonneg. intros. apply Rle_0_sqr. }
    apply Rle_refl.
  Qed.
  Lemma bsum_minus n (f g : nat -> R) : (bsum (S := R_cring) n f - bsum (S := R_cring) n g)%R = bsum (S := R_cring) n (fun k => (f k - g k)%R).
  Proof.
    induction n as [|n IH]; cbn [bsum]; [change (@eq R (0 - 0) 0)%R; lra|].
    change (@eq R ((bsum (S := R_cring) n f + f n) - (bsum (S := R_cring) n g + g n)) (bsum (S := R_cring) n (fun k => (f k - g k)%R) + (f n - g n)))%R. rewrite <- IH. ring.
  Qed.
  Lemma con2_minus x y v w a b : (con2 x v w a b - con2 y v w a b)%R = con2 (fun i => (x i - y i)%R) v w a b.
  Proof. unfold con2. rewrite bsum_minus. apply (bsum_ext (S := R_cring)). intros i _. rewrite bsum_minus. apply (bsum_ext (S := R_cring)). intros j _. match goal with |- ?x = ?y => change (@eq R x y) end. ring. Qed.
  Lemma con1_minus x y v a b : (con1 x v a b - con1 y v a b)%R = con1 (fun i => (x i - y i)%R) v a b.
  Proof. unfold con1. rewrite bsum_minus. apply (bsum_ext (S := R_cring)). intros i _. match goal with |- ?x = ?y => change (@eq R x y) end. ring. Qed.
End Cores.

Lemma rprod_app l l' : fold_right Rmult 1%R (l ++ l') = (fold_right Rmult 1 l * fold_right Rmult 1 l')%R.
Proof. induction l as [|x l IH]; cbn [app fold_right]; [lra|]. rewrite IH. ring. Qed.
Section Lists.
  Notation K := R_cring.
  Notation T := (tensor R_ops).
  Variable svd : T -> T * T * T.
  Variables D F O : nat.
  Variable cutoff : R.
  Notation vn := (feature_norm F).
  Notation drop := (drop_norm svd D F O cutoff).
  Notation bound_of B P E S := (map (fun q : R * R * R => fst (fst q)) B = map (fun q : option pair_type * T => frob (snd q)) P /\
    map (fun q : R * R * R => snd (fst q)) B = E /\ map snd B = S).
  (** the pairs of one MergedInput *)
  Lemma slices_close t t' n : shp t = [n; D; D; F; F] -> shp t' = shp t -> (forall s, s < n -> truncated svd D F O cutoff TwoInputs (sel0 t s) (sel0 t' s)) ->
    forall X, (forall s, In s X -> s < n) -> exists errs, Forall2 drop (map (fun s => (Some TwoInputs, sel0 t s)) X) errs /\
      forall (v w : nat -> nat -> R), exists B,
        close D (map (fun s => (D, (fun a b => con2 F (fun i => get t (s :: i)) (v s) (w s) a b))) X)
                (map (fun s => (D, (fun a b => con2 F (fun i => get t' (s :: i)) (v s) (w s) a b))) X) (map scl B) /\
        bound_of B (map (fun s => (Some TwoInputs, sel0 t s)) X) errs (map (fun s => (vn (v s) * vn (w s))%R) X).
  Proof.
    intros Ht Ht' Tr. induction X as [|s X IH]; intros HX.
    - exists []. split; [constructor|]. intros v w. exists []. split; [constructor|]. repeat split.
    - destruct IH as (errs & F2 & IH); [intros; apply HX; right; assumption|]. assert (Hs : s < n) by (apply HX; left; reflexivity).
      destruct (truncated_norms svd D F O cutoff TwoInputs (sel0 t s) (sel0 t' s) (Tr s Hs)) as (S & Sp & En & El).
      assert (Ss : shp (sel0 t s) = [D; D; F; F]) by (unfold sel0; cbn [shp]; rewrite Ht; reflexivity). rewrite Ss in En, El.
      set (e := sqrt (dropped cutoff D (nsv D F O TwoInputs) (fun k => get S [k]))) in *. exists (e :: errs). split; [cbn [map]; constructor; [exists S; split; [exact Sp|reflexivity]|exact F2]|].
      intros v w. destruct (IH v w) as (B & C & B1 & B2 & B3). exists ((frob (sel0 t s), e, vn (v s) * vn (w s))%R :: B).
      split; [|cbn [map fst snd]; rewrite B1, B2, B3; repeat split]. cbn [map scl fst snd]. constructor; [| | |exact C].
      + unfold frob. rewrite Ss. exact (con2_bound D F (fun i => get t (s :: i)) (v s) (w s)).
      + eapply Rle_trans; [exact (con2_bound D F (fun i => get t' (s :: i)) (v s) (w s))|]. apply Rmult_le_compat_r; [apply Rmult_le_pos; apply vn_nonneg|exact El].
      + rewrite (mf_ext D _ (con2 F (fun i => (get t (s :: i) - get t' (s :: i))%R) (v s) (w s))) by (intros; apply con2_minus).
        rewrite <- En. exact (con2_bound D F (fun i => (get t (s :: i) - get t' (s :: i))%R) (v s) (w s)).
  Qed.
  Lemma pair_scales (v : nat -> nat -> R) n : forall site, fold_right Rmult 1%R (map (fun s => (vn (v (site + 2 * s)%nat) * vn (v (site + 2 * s + 1)%nat))%R) (seq 0 n)) = fold_right Rmult 1%R (map (fun s => vn (v s)) (seq site (2 * n))).
  Proof.
    induction n as [|n IH]; intros site; [reflexivity|]. rewrite seq_S, map_app, rprod_app, IH. replace (2 * S n) with (2 * n + 2) by lia. rewrite seq_app, map_app, rprod_app. f_equal.
    cbn [seq map fold_right Nat.add]. replace (site + 2 * n + 1) with (S (site + 2 * n)) by lia. rewrite Rmult_1_r, Rmult_1_r. reflexivity.
  Qed.
  Lemma nrm_zero {A} (X : list A) (f : A -> R) : (forall x, In x X -> f x = 0%R) -> nrm X f = 0%R.
  Proof. intros H. unfold nrm. rewrite <- sqrt_0. f_equal. unfold sq2. induction X as [|x X IH]; [reflexivity|]. cbn. rewrite (H x) by (left; reflexivity). unfold rsum in IH. rewrite IH by (intros; apply H; right; assumption). ring. Qed.
  Lemma mf_same M : mf D (fun i j => (M i j - M i j)%R) = 0%R.
  Proof. rewrite mf_cells. apply nrm_zero. intros x _. lra. Qed.
  Lemma list_close l l' : Forall2 (truncated_mod svd D F O cutoff) l l' -> Forall (wf_mod K D F O) l ->
    exists errs, Forall2 drop (parts l) errs /\ forall o, o < O -> forall site v, exists B,
      close D (core_matrices D F l site v o) (core_matrices D F l' site v o) (map scl B) /\
      map (fun q => fst (fst q)) B = map (fun q => frob (snd q)) (parts l) /\ map (fun q => snd (fst q)) B = errs /\
      fold_right Rmult 1%R (map snd B) = fold_right Rmult 1%R (map (fun s => vn (v s)) (seq site (region_len K l))).
  Proof.
    induction 1 as [|m m' l l' Hm _ IH]; intros W.
    - exists []. split; [constructor|]. intros o Ho site v. exists []. split; [constructor|]. repeat split.
    - inversion W as [|? ? Wm Wl]; subst. destruct (IH Wl) as (errs & F2 & Hc). clear IH.
      assert (RL : region_len K (m :: l) = mod_len m + region_len K l) by reflexivity.
      assert (Step : forall e1, Forall2 drop (parts [m]) e1 ->
        (forall o, o < O -> forall site v, exists B c c', core_matrices D F (m :: l) site v o = c ++ core_matrices D F l (site + mod_len m) v o /\
           core_matrices D F (m' :: l') site v o = c' ++ core_matrices D F l' (site + mod_len m) v o /\ close D c c' (map scl B) /\
           map (fun q => fst (fst q)) B = map (fun q => frob (snd q)) (parts [m]) /\ map (fun q => snd (fst q)) B = e1 /\
           fold_right Rmult 1%R (map snd B) = fold_right Rmult 1%R (map (fun s => vn (v s)) (seq site (mod_len m)))) ->
        exists errs, Forall2 drop (parts (m :: l)) errs /\ forall o, o < O -> forall site v, exists B,
          close D (core_matrices D F (m :: l) site v o) (core_matrices D F (m' :: l') site v o) (map scl B) /\
          map (fun q => fst (fst q)) B = map (fun q => frob (snd q)) (parts (m :: l)) /\ map (fun q => snd (fst q)) B = errs /\
          fold_right Rmult 1%R (map snd B) = fold_right Rmult 1%R (map (fun s => vn (v s)) (seq site (region_len K (m :: l))))).
      { intros e1 F1 G. assert (EP : parts (m :: l) = parts [m] ++ parts l) by (unfold parts; cbn [flat_map]; rewrite app_nil_r; reflexivity).
        exists (e1 ++ errs). rewrite EP. split; [apply Forall2_app; assumption|]. intros o Ho site v.
        destruct (G o Ho site v) as (B1 & c & c' & -> & -> & C1 & A1 & A2 & A3). destruct (Hc o Ho (site + mod_len m) v) as (B2 & C2 & A4 & A5 & A6).
        exists (B1 ++ B2). rewrite !map_app, A1, A2, A4, A5. split; [apply close_app; assumption|]. split; [reflexivity|]. split; [reflexivity|].
        rewrite rprod_app, A3, A6, RL, seq_app, map_app, rprod_app. reflexivity. }
      clear Hc F2. destruct m as [t ub b|t|t|t|t lo]; destruct m' as [t' ub' b'|t'|t'|t'|t' lo']; cbn [truncated_mod wf_mod] in Hm, Wm; try (exfalso; exact Hm).
      + (* OutputSite *) subst t'. assert (Wm' : @shp (car R_ops) t = [O; D; D]) by exact Wm. apply (Step [0%R]); [repeat constructor|]. intros o Ho site v.
        exists [(frob t, 0%R, 1%R)], [(D, (fun a b => get t [o; a; b]) : mat K)], [(D, (fun a b => get t [o; a; b]) : mat K)].
        cbn [core_matrices app mod_len]. rewrite Nat.add_0_r. split; [reflexivity|]. split; [reflexivity|]. split; [|split; [reflexivity|]; split; [reflexivity|]; exact (Rmult_1_r 1)].
        assert (Q : (mf D (fun a b => get t [o; a; b]) <= frob t * 1)%R) by (rewrite Rmult_1_r; unfold frob; rewrite Wm'; exact (con0_bound D O (get t) o Ho)).
        cbn [map scl fst snd]. constructor; [exact Q|exact Q|rewrite Rmult_0_l; apply Req_le; apply (mf_same)|constructor].
      + (* InputSite *) subst t'. assert (Wm' : @shp (car R_ops) t = [D; D; F]) by exact Wm. apply (Step [0%R]); [repeat constructor|]. intros o Ho site v.
        exists [(frob t, 0%R, vn (v site))], [(D, con1 F (get t) (v site) : mat K)], [(D, con1 F (get t) (v site) : mat K)].
        split; [reflexivity|]. split; [reflexivity|]. split; [|repeat split].
        assert (Q : (mf D (con1 F (get t) (v site)) <= frob t * vn (v site))%R) by (unfold frob; rewrite Wm'; exact (con1_bound D F (get t) (v site))).
        cbn [map scl fst snd]. constructor; [exact Q|exact Q|rewrite Rmult_0_l; apply Req_le; apply (mf_same)|constructor].
      + (* MergedInput *) destruct Hm as [Hs Tr]. destruct Wm as (n & Hn & Ht). 
        assert (Sz : size 0 t = n) by (unfold size; rewrite Ht; reflexivity). assert (Sz' : size 0 t' = n) by (unfold size; rewrite Hs, Ht; reflexivity). rewrite Sz in Tr.
        destruct (slices_close t t' n Ht Hs Tr (seq 0 n)) as (e1 & F1 & G); [intros s Hin; apply in_seq in Hin; lia|].
        apply (Step e1); [unfold parts; cbn [flat_map]; rewrite app_nil_r, Sz; exact F1|]. intros o Ho site v.
        destruct (G (fun s => v (site + 2 * s)%nat) (fun s => v (site + 2 * s + 1)%nat)) as (B & C & B1 & B2 & B3).
        eexists B, _, _. cbn [core_matrices mod_len]. rewrite Sz, Sz'. split; [reflexivity|]. split; [reflexivity|]. split; [exact C|]. split; [|split; [exact B2|]].
        * unfold parts. cbn [flat_map]. rewrite app_nil_r, Sz. exact B1.
        * rewrite B3. apply pair_scales.
      + (* MergedOutput *) destruct Hm as [<- Tr]. destruct (truncated_norms svd D F O cutoff _ _ _ Tr) as (S & Sp & En & El).
        assert (Wm' : @shp (car R_ops) t = [O; D; D; F]) by exact Wm. rewrite Wm' in En, El.
        set (p := if lo then OutputInput else InputOutput) in *. set (e := sqrt (dropped cutoff D (nsv D F O p) (fun k => get S [k]))) in *.
        apply (Step [e]); [constructor; [exists S; split; [exact Sp|reflexivity]|constructor]|]. intros o Ho site v.
        exists [(frob t, e, vn (v site))], [(D, con1 F (fun i => get t (o :: i)) (v site) : mat K)], [(D, con1 F (fun i => get t' (o :: i)) (v site) : mat K)].
        split; [reflexivity|]. split; [reflexivity|]. split; [|repeat split].
        cbn [map scl fst snd]. constructor; [| | |constructor].
        * unfold frob. rewrite Wm'. exact (con1o_bound D F O (get t) (v site) o Ho).
        * eapply Rle_trans; [exact (con1o_bound D F O (get t') (v site) o Ho)|]. apply Rmult_le_compat_r; [apply vn_nonneg|exact El].
        * rewrite (mf_ext D _ (con1 F (fun i => (get t (o :: i) - get t' (o :: i))%R) (v site))) by (intros; apply con1_minus).
          rewrite <- En. exact (con1o_bound D F O (fun i => (get t i - get t' i)%R) (v site) o Ho).
  Qed.
  Lemma truncated_replaced p t t' : truncated svd D F O cutoff p t t' -> replaced svd D F O cutoff (Some p, t) (Some p, t').
  Proof.
    intros H. assert (Hs : shp t' = shp t) by (destruct H as (U & S & V & _ & Hs & _); exact Hs). split; [reflexivity|]. split; [exact Hs|]. cbn [fst snd].
    destruct (truncated_norms svd D F O cutoff p t t' H) as (S & Sp & En & El). split; [exists S; split; [exact Sp|exact En]|]. unfold frob at 1. rewrite Hs. exact El.
  Qed.
  Lemma parts_replaced l l' : Forall2 (truncated_mod svd D F O cutoff) l l' -> Forall2 (replaced svd D F O cutoff) (parts l) (parts l').
  Proof.
    induction 1 as [|m m' l l' Hm _ IH]; [constructor|]. unfold parts in *. cbn [flat_map]. apply Forall2_app; [|exact IH]. clear IH.
    destruct m as [t ub b|t|t|t|t lo]; destruct m' as [t' ub' b'|t'|t'|t'|t' lo']; cbn [truncated_mod] in Hm; try (exfalso; exact Hm).
    - subst t'. repeat constructor.
    - subst t'. repeat constructor.
    - destruct Hm as [Hs Tr]. assert (Z : size 0 t' = size 0 t) by (unfold size; rewrite Hs; reflexivity). rewrite Z.
      assert (X : forall s, In s (seq 0 (size 0 t)) -> s < size 0 t) by (intros s Hin; apply in_seq in Hin; lia). revert X. generalize (seq 0 (size 0 t)) as q. intros q X. induction q as [|s q IH]; [constructor|].
      cbn [map]. constructor; [apply truncated_replaced, Tr, X; left; reflexivity|]. apply IH. intros; apply X; right; assumption.
    - destruct Hm as [<- Tr]. constructor; [|constructor]. apply truncated_replaced. exact Tr.
  Qed.
  (** if only singular values below the cutoff do not fit into the bond dimension, then what is dropped is small *)
  Lemma count_ge_all f n k : (forall i j, i <= j -> j < n -> (f j <= f i)%R) -> count_ge cutoff f n <= k -> k < n -> (f k < cutoff)%R.
  Proof.
    intros Hd Hc Hk. destruct (Rlt_dec (f k) cutoff) as [|X]; [assumption|]. exfalso. assert (Y : k < count_ge cutoff f n); [|lia].
    apply count_prefix; [exact Hk|]. intros q Hq. apply Rle_trans with (f k); [lra|]. apply Hd; assumption.
  Qed.
  Lemma drop_small q e : (0 < cutoff)%R -> drop q e -> (forall p S, fst q = Some p -> spectrum svd D F O p (snd q) S -> forall k, D <= k -> k < nsv D F O p -> (get S [k] < cutoff)%R) ->
    (0 <= e <= match fst q with None => 0 | Some p => cutoff * sqrt (INR (nsv D F O p)) end)%R.
  Proof.
    intros Hc Hq Hs. destruct q as [[p|] t]; cbn [drop_norm fst snd] in *; [|subst e; lra]. destruct Hq as (S & Sp & ->). split; [apply sqrt_pos|]. specialize (Hs p S eq_refl Sp).
    assert (Hnn : forall k, k < nsv D F O p -> (0 <= get S [k])%R /\ forall j, j <= k -> (get S [k] <= get S [j])%R).
    { destruct Sp as (U & V & [Hl HT HU HS HV Hsvd]). destruct (matrix_exists t (sizes D F O) _ _ _ _ _ Hl HT) as (A0 & HA0). destruct (Hsvd A0 HA0) as [_ Hd].
      assert (Hk : Nat.min (volume (map (sizes D F O) (remove ascii_dec "u"%char (axes1 p)))) (volume (map (sizes D F O) (remove ascii_dec "u"%char (axes2 p)))) = nsv D F O p).
      { destruct p; cbn; rewrite ?Nat.add_0_r; [lia|reflexivity|reflexivity]. }
      intros k Hk'. rewrite <- Hk in Hk'. split; [apply (svd_nonneg _ _ _ _ _ _ Hd k Hk')|]. intros j Hj. apply (svd_desc _ _ _ _ _ _ Hd j k Hj Hk'). }
    replace (cutoff * sqrt (INR (nsv D F O p)))%R with (sqrt (cutoff * cutoff * INR (nsv D F O p))) by (rewrite sqrt_mult_alt by nra; rewrite sqrt_square by lra; reflexivity).
    apply sqrt_le_1_alt. unfold dropped.
    assert (B : forall n f, (forall k, k < n -> (f k <= cutoff * cutoff)%R) -> (bsum (S := R_ops) n f <= cutoff * cutoff * INR n)%R).
    { clear. induction n as [|n IH]; intros f Hf; cbn [bsum]; [change (0 <= cutoff * cutoff * 0)%R; lra|]. rewrite S_INR. specialize (IH f ltac:(intros; apply Hf; lia)). pose proof (Hf n ltac:(lia)) as X.
      change (bsum (S := R_ops) n f + f n <= cutoff * cutoff * (INR n + 1))%R. lra. }
    apply B. intros k Hk. destruct (Nat.ltb_spec k (count_ge cutoff (fun k => get S [k]) (Nat.min D (nsv D F O p)))) as [X|X]; [nra|].
    assert (Y : (get S [k] < cutoff)%R).
    { destruct (le_lt_dec D k) as [Z|Z]; [apply Hs; assumption|]. apply (count_ge_all (fun k => get S [k]) (Nat.min D (nsv D F O p)) k); [|exact X|lia]. intros i j Hij Hj. apply Hnn; lia. }
    pose proof (proj1 (Hnn k Hk)). nra.
  Qed.
  Lemma frob_nonneg t : (0 <= frob t)%R. Proof. apply sqrt_pos. Qed.
  Lemma prod_nonneg l : Forall (fun x => (0 <= x)%R) l -> (0 <= fold_right Rmult 1 l)%R.
  Proof. induction 1; cbn [fold_right]; [lra|]. apply Rmult_le_pos; assumption. Qed.
  Lemma first_order_mono : forall (a e e' : list R), Forall (fun x => (0 <= x)%R) a -> Forall2 (fun x y => (0 <= x <= y)%R) e e' -> List.length e = List.length a -> (0 <= first_order (combine a e) <= first_order (combine a e'))%R.
  Proof.
    intros a e e' Ha H. revert a Ha. induction H as [|x y e e' Hx H IH]; intros a Ha L; destruct a as [|z a]; try discriminate L; [cbn; lra|]. cbn [combine first_order].
    inversion Ha as [|? ? Hz Ha']; subst. injection L as L. specialize (IH a Ha' L).
    assert (L' : List.length e' = List.length a) by (rewrite <- L; clear -H; induction H; cbn; congruence).
    assert (M : forall u : list R, List.length u = List.length a -> map fst (combine a u) = a).
    { clear. induction a as [|z a IHa]; intros [|u0 u] L; try discriminate L; [reflexivity|]. cbn. f_equal. apply IHa. injection L as L. exact L. }
    rewrite !M by assumption. pose proof (prod_nonneg a Ha') as P. set (pr := fold_right Rmult 1%R a) in *. split; [apply Rplus_le_le_0_compat; apply Rmult_le_pos; lra|]. apply Rplus_le_compat; [apply Rmult_le_compat_r; lra|apply Rmult_le_compat_l; lra].
  Qed.
  Lemma outputs_close per l l' : Forall2 (truncated_mod svd D F O cutoff) l l' -> Forall (wf_mod K D F O) l -> 0 < D -> l <> [] ->
    exists errs, Forall2 drop (parts l) errs /\ forall v o, o < O ->
      (Rabs (core_output per D F l v o - core_output per D F l' v o)
       <= (if per then sqrt (INR D) else 1) * first_order (combine (map (fun q => frob (snd q)) (parts l)) errs) * fold_right Rmult 1 (map (fun s => vn (v s)) (seq 0 (region_len K l))))%R.
  Proof.
    intros Tr W HD Hne. destruct (list_close l l' Tr W) as (errs & F2 & H). exists errs. split; [exact F2|]. intros v o Ho. destruct (H o Ho 0 v) as (B & C & B1 & B2 & B3).
    assert (Ne : core_matrices D F l 0 v o <> []).
    { destruct l as [|m l]; [contradiction|]. inversion W as [|? ? Wm _]; subst. inversion Tr as [|? m' ? ? Hm _]; subst. destruct m as [t ub b|t|t|t|t lo]; [destruct m'; destruct Hm|discriminate|discriminate| |discriminate].
      cbn [core_matrices]. destruct Wm as (n & Hn & Ht). unfold size. rewrite Ht. cbn [nth]. destruct n; [lia|discriminate]. }
    pose proof (chain_spread D _ _ _ C Ne) as Q. rewrite spread_scale, spread_first, B3 in Q.
    assert (EB : map fst B = combine (map (fun q => frob (snd q)) (parts l)) errs).
    { rewrite <- B1, <- B2. clear. induction B as [|[[a e] c] B IH]; [reflexivity|]. cbn [map combine fst snd]. rewrite IH. reflexivity. }
    rewrite EB in Q. unfold core_output. destruct per.
    - assert (E : (mtrace D (chain (core_matrices D F l 0 v o)) - mtrace D (chain (core_matrices D F l' 0 v o)))%R = mtrace (K := K) D (fun i j => chain (K := K) (core_matrices D F l 0 v o) i j - chain (K := K) (core_matrices D F l' 0 v o) i j)%R) by apply bsum_minus.
      rewrite E. eapply Rle_trans; [apply trace_mf|]. rewrite Rmult_assoc. apply Rmult_le_compat_l; [apply sqrt_pos|exact Q].
    - rewrite Rmult_1_l. eapply Rle_trans; [exact (entry_mf D (fun i j => (chain (K := K) (core_matrices D F l 0 v o) i j - chain (K := K) (core_matrices D F l' 0 v o) i j)%R) 0 0 HD HD)|exact Q].
  Qed.
End Lists.

Section Adaptive.
  Notation K := R_cring.
  Notation T := (tensor R_ops).
  Variable svd : T -> T * T * T.
  Variables (N O D F : nat) (per par : bool) (label : option Z) (path : mpath) (std cutoff : R) (thr : Z) (rnd : nat -> list nat -> R) (m0 m : ad_mps).
  Hypotheses (Hinit : ad_init N O D F per par label path std cutoff thr rnd = Ok m0) (HN : 1 <= N) (HD : 0 < D).
  Hypothesis Hafter : history svd m0 m.
  Hypotheses (HF : 0 < F) (HO : 0 < O) (Hcut : (0 < cutoff)%R).
  Notation lab := (label_number N label).
  Notation active m := (g_active (a_reg m)).
  Lemma truncated_no_region l l' : Forall2 (truncated_mod svd D F O cutoff) l l' -> Forall (no_region K) l'.
  Proof. induction 1 as [|a b l l' H _ IH]; constructor; [|exact IH]. destruct a, b; try exact Logic.I; destruct H. Qed.
  Lemma flip_to x e g y g' m' : embedded_input m x = Ok e -> flip_due m -> healthy svd D F O cutoff (active m) ->
    ad_forward svd m x g = ((Ok y, g'), Some m') ->
    offset m' <> offset m /\ exists l' n, Forall2 (truncated_mod svd D F O cutoff) (active m) l' /\ shp y = [n; O] /\ (0 < lab -> n = size 0 e) /\
      forall b c, b < n -> c < O -> get y [b; c] = core_output per D F l' (fun s i => get e [source (size 0 e) b; s; i]) c.
  Proof.
    intros He Hf Hh Ef. pose proof (Im svd N O D F per par label path std cutoff thr rnd m0 m Hinit HN HD Hafter) as I1. pose proof (H2 N O D F per par label path std cutoff thr rnd m0 Hinit HN HD) as N2.
    pose proof (Cm svd N O D F per par label path std cutoff thr rnd m0 m Hinit HN HD Hafter) as Cc. pose proof (Pm svd N O D F per par label path std cutoff thr rnd m0 m Hinit HN HD Hafter) as Pp.
    rewrite <- Cc in Hh. pose proof Hcut as Hc. rewrite <- Cc in Hc.
    assert (Nb : ~ bad (g_offset (a_reg m)) lab (N - lab)).
    { intros Hb. destruct (call_flip svd N O D F lab HD HF HO N2 m x e g _ I1 Hc He eq_refl Hf Hh) as [Gb _]. rewrite (Gb Hb) in Ef. discriminate Ef. }
    destruct (call_flip_exact svd N O D F lab HD N2 HF HO m x e g _ I1 Hc He eq_refl Hf Hh Nb) as (m1 & Eo & Ec & [_ (l' & Tr & Qm)] & Q). rewrite Cc in Tr.
    destruct (contracted lab ((g_offset (a_reg m) + 1) mod 2) g (size 0 e)) as [n|] eqn:C1; [|destruct Q as (? & X & _); rewrite Ef in X; discriminate X].
    destruct Q as (y1 & X & Hy & Gy & _). rewrite Ef in X. injection X as <- _ <-. split.
    { unfold offset. rewrite Eo. pose proof (gr_off _ _ _ _ _ _ (i_reg _ _ _ _ _ _ I1)) as Ho. destruct (g_offset (a_reg m)) as [|[|z]]; [discriminate|discriminate|lia]. }
    exists l', n. split; [exact Tr|]. split; [exact Hy|]. split.
    - intros Hlab. unfold contracted in C1. destruct (Nat.eqb_spec lab 0) as [|_]; [lia|]. cbn [andb] in C1. injection C1 as <-. reflexivity.
    - intros b c Hb Hcc. rewrite (Gy b c Hb Hcc), Ec, Pp. destruct Qm as (W1 & _ & _ & _ & Qq).
      rewrite <- (closed_output D F O per l' _ c HD W1 (truncated_no_region _ _ Tr)). symmetry. apply closed_eqc; [exact HD|]. apply Qq. exact Hcc.
  Qed.
  (** C107: the output of a call that flips is that of the merged cores with every pair replaced by its truncation *)
  Theorem C107_flip x e g y g' m' : embedded_input m x = Ok e -> flip_due m -> healthy svd D F O cutoff (active m) ->
    ad_forward svd m x g = ((Ok y, g'), Some m') ->
    exists l' n, Forall2 (truncated_mod svd D F O cutoff) (active m) l' /\ Forall2 (replaced svd D F O cutoff) (parts (active m)) (parts l') /\ shp y = [n; O] /\
      forall b c, b < n -> c < O -> get y [b; c] = core_output per D F l' (fun s i => get e [source (size 0 e) b; s; i]) c.
  Proof. intros He Hf Hh Ef. destruct (flip_to x e g y g' m' He Hf Hh Ef) as (_ & l' & n & A & B & _ & C). exists l', n. split; [exact A|]. split; [apply parts_replaced; exact A|]. auto. Qed.
  Lemma wait_to x e g thr' y' g2 m2 : embedded_input m x = Ok e -> (g_counter (a_reg m) < thr')%Z ->
    let waiting := with_reg m (mkReg (g_list0 (a_reg m)) (g_list1 (a_reg m)) (g_offset (a_reg m)) (g_counter (a_reg m)) thr' (g_cutoff (a_reg m))) in
    ad_forward svd waiting x g = ((Ok y', g2), Some m2) ->
    offset m2 = offset m /\ exists n, shp y' = [n; O] /\ (0 < lab -> n = size 0 e) /\
      forall b c, b < n -> c < O -> get y' [b; c] = core_output per D F (active m) (fun s i => get e [source (size 0 e) b; s; i]) c.
  Proof.
    intros He Hthr waiting E'. pose proof (Im svd N O D F per par label path std cutoff thr rnd m0 m Hinit HN HD Hafter) as I1. pose proof (H2 N O D F per par label path std cutoff thr rnd m0 Hinit HN HD) as N2.
    pose proof (Pm svd N O D F per par label path std cutoff thr rnd m0 m Hinit HN HD Hafter) as Pp.
    assert (Iw : inv N O D F lab waiting) by (pose proof I1 as [A1 A2 A3 A4 A5 A6 [B1 B2 B3] A8 A9]; constructor; try assumption; constructor; assumption).
    assert (Nf : ~ flip_due waiting) by (unfold flip_due, waiting; cbn [with_reg a_reg g_threshold g_counter]; lia).
    pose proof (call_no_flip_exact svd N O D F lab HD N2 waiting x e g _ Iw He eq_refl Nf) as Q'. change (g_offset (a_reg waiting)) with (offset m) in Q'.
    destruct (contracted lab (offset m) g (size 0 e)) as [n'|] eqn:C2; [|destruct Q' as (? & X); rewrite E' in X; discriminate X].
    destruct Q' as (y1 & X' & Hy' & Gy'). rewrite E' in X'. injection X' as <- _ ->. split; [reflexivity|]. exists n'. split; [exact Hy'|]. split.
    - intros Hlab. unfold contracted in C2. destruct (Nat.eqb_spec lab 0) as [|_]; [lia|]. cbn [andb] in C2. injection C2 as <-. reflexivity.
    - destruct (of_cores_output N O D F per par label path std cutoff thr rnd m0 Hinit HN HD waiting e y' (size 0 e) n' Iw Pp Hy' Gy') as [_ G]. exact G.
  Qed.
  (** C107: how far the output of a call that flips is from that of the same model waiting *)
  Theorem C107_bound x e g thr' y g1 m1 y' g2 m2 : embedded_input m x = Ok e -> flip_due m -> healthy svd D F O cutoff (active m) -> (g_counter (a_reg m) < thr')%Z ->
    let waiting := with_reg m (mkReg (g_list0 (a_reg m)) (g_list1 (a_reg m)) (g_offset (a_reg m)) (g_counter (a_reg m)) thr' (g_cutoff (a_reg m))) in
    ad_forward svd m x g = ((Ok y, g1), Some m1) -> ad_forward svd waiting x g = ((Ok y', g2), Some m2) ->
    exists errs n n', Forall2 (drop_norm svd D F O cutoff) (parts (active m)) errs /\ shp y = [n; O] /\ shp y' = [n'; O] /\ (0 < lab -> n = size 0 e /\ n' = size 0 e) /\
      forall b c, b < n -> b < n' -> c < O ->
        (Rabs (get y' [b; c] - get y [b; c]) <= (if per then sqrt (INR D) else 1) * first_order (combine (map (fun q => frob (snd q)) (parts (active m))) errs)
           * fold_right Rmult 1 (map (fun s => feature_norm F (fun i => get e [source (size 0 e) b; s; i])) (seq 0 N)))%R.
  Proof.
    intros He Hf Hh Hthr waiting E E'. destruct (flip_to x e g y g1 m1 He Hf Hh E) as (_ & l' & n & Tr & Hy & Hn & Gy).
    destruct (wait_to x e g thr' y' g2 m2 He Hthr E') as (_ & n' & Hy' & Hn' & Gy').
    pose proof (Im svd N O D F per par label path std cutoff thr rnd m0 m Hinit HN HD Hafter) as I1. pose proof (H2 N O D F per par label path std cutoff thr rnd m0 Hinit HN HD) as N2.
    destruct (inv_sites N O D F lab N2 m I1) as [Hpq Ep]. pose proof (gr_active _ _ _ _ _ _ (i_reg _ _ _ _ _ _ I1)) as Ga. pose proof (gr_off _ _ _ _ _ _ (i_reg _ _ _ _ _ _ I1)) as Ho.
    pose proof (merged_len D F O _ _ _ _ Ho Hpq Ga) as RL. rewrite <- Ep in RL.
    assert (Ne : active m <> []) by (intros X; rewrite X in RL; cbn in RL; lia).
    destruct (outputs_close svd D F O cutoff per _ _ Tr (proj1 Ga) HD Ne) as (errs & F2 & Q). exists errs, n, n'. split; [exact F2|]. split; [exact Hy|]. split; [exact Hy'|]. split; [auto|].
    intros b c Hb Hb' Hcc. rewrite (Gy b c Hb Hcc), (Gy' b c Hb' Hcc). rewrite RL in Q. exact (Q _ c Hcc).
  Qed.
  (** C107 in terms of svd_cutoff, if the bond dimension suffices: what does not fit into it is below the cutoff *)
  Theorem C107_cutoff x e g thr' y g1 m1 y' g2 m2 : embedded_input m x = Ok e -> flip_due m -> healthy svd D F O cutoff (active m) -> (g_counter (a_reg m) < thr')%Z ->
    (forall p t S, In (Some p, t) (parts (active m)) -> spectrum svd D F O p t S -> forall k, D <= k -> k < nsv D F O p -> (get S [k] < cutoff)%R) ->
    let waiting := with_reg m (mkReg (g_list0 (a_reg m)) (g_list1 (a_reg m)) (g_offset (a_reg m)) (g_counter (a_reg m)) thr' (g_cutoff (a_reg m))) in
    ad_forward svd m x g = ((Ok y, g1), Some m1) -> ad_forward svd waiting x g = ((Ok y', g2), Some m2) ->
    forall b c, b < size 0 y -> b < size 0 y' -> c < O ->
      (Rabs (get y' [b; c] - get y [b; c]) <= (if per then sqrt (INR D) else 1) *
         first_order (map (fun q => (frob (snd q), match fst q with None => 0 | Some p => cutoff * sqrt (INR (nsv D F O p)) end)) (parts (active m)))
         * fold_right Rmult 1 (map (fun s => feature_norm F (fun i => get e [source (size 0 e) b; s; i])) (seq 0 N)))%R.
  Proof.
    intros He Hf Hh Hthr Hs waiting E E' b c Hb Hb' Hcc. destruct (C107_bound x e g thr' y g1 m1 y' g2 m2 He Hf Hh Hthr E E') as (errs & n & n' & F2 & Hy & Hy' & _ & Q).
    unfold size in Hb, Hb'. rewrite Hy in Hb. rewrite Hy' in Hb'. cbn [nth] in Hb, Hb'. eapply Rle_trans; [apply Q; assumption|].
    apply Rmult_le_compat_r; [apply prod_nonneg, Forall_forall; intros z Hz; apply in_map_iff in Hz as (s & <- & _); apply vn_nonneg|].
    apply Rmult_le_compat_l; [destruct per; [apply sqrt_pos|lra]|].
    assert (Cm' : forall l : list (option pair_type * T), combine (map (fun q => frob (snd q)) l) (map (fun q => match fst q with None => 0%R | Some p => (cutoff * sqrt (INR (nsv D F O p)))%R end) l)
      = map (fun q => (frob (snd q), match fst q with None => 0%R | Some p => (cutoff * sqrt (INR (nsv D F O p)))%R end)) l) by (induction l as [|q l IH]; [reflexivity|]; cbn [map combine]; rewrite IH; reflexivity).
    rewrite <- Cm'. apply first_order_mono.
    - apply Forall_forall. intros z Hz. apply in_map_iff in Hz as (q & <- & _). apply frob_nonneg.
    - revert Hs F2. generalize (parts (active m)) as l. clear -Hcut. intros l Hs F2. induction F2 as [|q e l errs Hq F2 IH]; [constructor|]. cbn [map]. constructor; [|apply IH; intros p t S Hin; apply (Hs p t S); right; exact Hin].
      apply (drop_small svd D F O cutoff q e Hcut Hq). intros p S Ep Sp. destruct q as [o t]. cbn [fst snd] in Ep, Sp. subst o. apply (Hs p t S); [left; reflexivity|exact Sp].
    - rewrite map_length. clear -F2. induction F2 as [|? ? ? ? _ _ IH]; [reflexivity|]. cbn [List.length]. rewrite IH. reflexivity.
  Qed.
End Adaptive.
