(** * LogNorm: get_log_norm computes ln Z. *)
From Coq Require Import Ring_theory Ring Reals Lra.
From Verif Require Import Base Scalars Tensor Utils2 MpsBase Spec LinAlg Utils2Proofs EinsumProofs MatseqProofs SlimProofs.

(** rewrite the head of a bind with an equation that only matches up to conversion *)
Ltac bind_with E :=
  match type of E with
  | _ = Ok ?b => match goal with |- context [rbind ?X _] => replace X with (Ok b) by (symmetry; exact E) end
  end.

Section Swaps.
  Variable K : cring.
  Add Ring KrSw : (rth K).
  Lemma bsum_swap3 a b c (g : nat -> nat -> nat -> K) :
    bsum a (fun k => bsum b (fun k' => bsum c (fun l => g k k' l)))
    = bsum c (fun l => bsum a (fun k => bsum b (fun k' => g k k' l))).
  Proof.
    transitivity (bsum a (fun k => bsum c (fun l => bsum b (fun k' => g k k' l)))).
    - apply bsum_ext. intros k _. apply bsum_swap.
    - apply bsum_swap.
  Qed.
  Lemma bsum_swap4 a b c e (g : nat -> nat -> nat -> nat -> K) :
    bsum a (fun k => bsum b (fun k' => bsum c (fun l => bsum e (fun p => g k k' l p))))
    = bsum c (fun l => bsum e (fun p => bsum a (fun k => bsum b (fun k' => g k k' l p)))).
  Proof.
    rewrite bsum_swap3. apply bsum_ext. intros l _. apply bsum_swap3.
  Qed.
  (** the innermost sum moved outside *)
  Lemma bsum_swap5 a b c e m (g : nat -> nat -> nat -> nat -> nat -> K) :
    bsum a (fun k => bsum b (fun k' => bsum c (fun l => bsum e (fun p => bsum m (fun x => g k k' l p x)))))
    = bsum m (fun x => bsum a (fun k => bsum b (fun k' => bsum c (fun l => bsum e (fun p => g k k' l p x))))).
  Proof.
    transitivity (bsum a (fun k => bsum b (fun k' => bsum m (fun x => bsum c (fun l => bsum e (fun p => g k k' l p x)))))).
    - apply bsum_ext. intros k _. apply bsum_ext. intros k' _. apply bsum_swap3.
    - apply bsum_swap3.
  Qed.
End Swaps.

(** words, last letter split off *)
Lemma words_snoc_sum (K : cring) (g : list nat -> K) d n :
  lsum (words d (S n)) g = lsum (words d n) (fun xs => lsum (seq 0 d) (fun m => g (xs ++ [m]))).
Proof.
  revert g. induction n as [|n IH]; intros g.
  - cbn [words]. rewrite (lsum_flat_map K), (lsum_cons K), (lsum_nil K).
    cbn [app]. rewrite (lsum_ext K (seq 0 d) _ (fun m => g [m])).
    + destruct (rth K) as [H0 Hc Ha _ _ _ _ _ _]. rewrite Hc, H0. reflexivity.
    + intros m _. cbn [map]. rewrite (lsum_cons K), (lsum_nil K).
      destruct (rth K) as [H0 Hc Ha _ _ _ _ _ _]. rewrite Hc, H0. reflexivity.
  - change (words d (S (S n))) with (flat_map (fun i => map (cons i) (words d (S n))) (seq 0 d)).
    change (words d (S n)) with (flat_map (fun i => map (cons i) (words d n)) (seq 0 d)) at 2.
    rewrite !(lsum_flat_map K). apply (lsum_ext K). intros i _. rewrite !(lsum_map K).
    rewrite IH. reflexivity.
Qed.
Lemma words_length d n xs : In xs (words d n) -> List.length xs = n.
Proof.
  revert xs; induction n as [|n IH]; intros xs; simpl.
  - intros [<-|[]]. reflexivity.
  - intros H. apply in_flat_map in H as (i & _ & H). apply in_map_iff in H as (r & <- & Hr).
    simpl. rewrite (IH r Hr). reflexivity.
Qed.
Lemma words_letters d n xs : In xs (words d n) -> forall x, In x xs -> x < d.
Proof.
  revert xs; induction n as [|n IH]; intros xs; simpl.
  - intros [<-|[]] x [].
  - intros H. apply in_flat_map in H as (i & Hi & H). apply in_map_iff in H as (r & <- & Hr).
    intros x [<-|Hx]; [apply in_seq in Hi; lia|]. apply (IH r Hr x Hx).
Qed.

Section LogNorm.
  Variable K : numfield.
  Add Ring KrL : (rth K).
  Notation xt := (tensor (xnum K)).
  Notation xr := (tensor xreal).
  Notation XK := (xn_ops K).
  Notation matK := (mat K).
  Notation ofR := (nofR K).
  Notation cj := (nconj K).

  (** *** row vectors of words *)
  Definition uvec (D : nat) (v : vec K) (site : nat -> nat -> matK) (xs : list nat) : vec K :=
    vmul D v (chain (sites D site 0 xs)).
  Lemma sites_app {X} D (site : nat -> X -> matK) t xs ys :
    sites D site t (xs ++ ys) = sites D site t xs ++ sites D site (t + List.length xs) ys.
  Proof.
    revert t; induction xs as [|x xs IH]; intros t; simpl.
    - rewrite Nat.add_0_r. reflexivity.
    - rewrite IH. do 3 f_equal. lia.
  Qed.
  Lemma sites_cols {X} D (site : nat -> X -> matK) t xs : cols K D (sites D site t xs) = D.
  Proof. revert t; induction xs as [|x xs IH]; intros t; [reflexivity|]. simpl. rewrite (cols_cons K). apply IH. Qed.
  Lemma uvec_snoc D v site xs m j : j < D ->
    uvec D v site (xs ++ [m]) j = bsum D (fun k => smul (uvec D v site xs k) (site (List.length xs) m k j)).
  Proof.
    intros Hj. unfold uvec, vmul. rewrite sites_app. cbn [sites plus].
    transitivity (bsum D (fun i => smul (v i) (bsum D (fun k => smul (chain (sites D site 0 xs) i k) (site (List.length xs) m k j))))).
    - apply bsum_ext. intros i Hi. rewrite (chain_app K D) by exact Hi. rewrite sites_cols.
      f_equal. unfold mmul. apply bsum_ext. intros k Hk.
      rewrite (chain_single K) by exact Hj. reflexivity.
    - transitivity (bsum D (fun i => bsum D (fun k => smul (smul (v i) (chain (sites D site 0 xs) i k)) (site (List.length xs) m k j)))).
      + apply bsum_ext. intros i Hi. rewrite <- bsum_mul_l. apply bsum_ext. intros; ring.
      + rewrite bsum_swap. apply bsum_ext. intros k Hk. rewrite bsum_mul_r. reflexivity.
  Qed.
  Lemma uvec_nil D v site j : j < D -> uvec D v site [] j = v j.
  Proof. intros Hj. unfold uvec, vmul. apply (bsum_delta_r K D j v Hj). Qed.
  Lemma amplitude_uvec D v w site xs :
    amplitude D v w site xs = bsum D (fun j => smul (uvec D v site xs j) (w j)).
  Proof.
    unfold amplitude, sandwich, uvec, vmul. rewrite bsum_swap. apply bsum_ext. intros j Hj.
    rewrite <- bsum_mul_r. apply bsum_ext. intros; ring.
  Qed.

  (** *** the Gram matrix of all weighted words *)
  Definition gram (D : nat) (v : vec K) (wt : nat -> R) (M : nat) (site : nat -> nat -> matK) (n : nat) : matK :=
    fun r q => lsum (K := K) (words M n) (fun xs =>
      smul (ofR (weight_of wt xs)) (smul (uvec D v site xs r) (cj (uvec D v site xs q)))).
  Lemma weight_snoc wt xs m : weight_of wt (xs ++ [m]) = (weight_of wt xs * wt m)%R.
  Proof. unfold weight_of. induction xs as [|x xs IH]; simpl; [ring|]. rewrite IH. ring. Qed.
  Lemma weight_nonneg wt M xs : (forall m, m < M -> (0 <= wt m)%R) -> (forall x, In x xs -> x < M) ->
    (0 <= weight_of wt xs)%R.
  Proof.
    intros Hw. unfold weight_of. induction xs as [|x xs IH]; intros Hx; simpl; [lra|].
    apply Rmult_le_pos; [apply Hw, Hx; left; reflexivity|]. apply IH. intros y Hy. apply Hx. right; exact Hy.
  Qed.

  (** one transfer step, in terms of the points *)
  Definition tstep (D M : nat) (wt : nat -> R) (S : nat -> matK) (X : matK) : matK :=
    fun r q => bsum M (fun m => smul (ofR (wt m)) (bsum D (fun l => bsum D (fun p =>
      smul (S m l r) (smul (X l p) (cj (S m p q))))))).
  Lemma gram_step D v wt M site n r q : r < D -> q < D ->
    tstep D M wt (site n) (gram D v wt M site n) r q = gram D v wt M site (S n) r q.
  Proof.
    intros Hr Hq. unfold gram at 2. rewrite (words_snoc_sum K).
    transitivity (lsum (K := K) (words M n) (fun xs => lsum (K := K) (seq 0 M) (fun m =>
       smul (ofR (weight_of wt xs * wt m)) (smul (bsum D (fun k => smul (uvec D v site xs k) (site n m k r)))
          (cj (bsum D (fun k => smul (uvec D v site xs k) (site n m k q)))))))).
    2:{ apply (lsum_ext K). intros xs Hxs. apply (lsum_ext K). intros m Hm.
        rewrite weight_snoc, !uvec_snoc by assumption. rewrite (words_length _ _ _ Hxs). reflexivity. }
    rewrite (lsum_swap K). rewrite (lsum_seq K). unfold tstep. apply bsum_ext. intros m Hm.
    unfold gram.
    transitivity (smul (ofR (wt m)) (bsum D (fun l => bsum D (fun p => lsum (K := K) (words M n) (fun xs =>
       smul (ofR (weight_of wt xs)) (smul (smul (uvec D v site xs l) (site n m l r)) (cj (smul (uvec D v site xs p) (site n m p q))))))))).
    { f_equal. apply bsum_ext. intros l Hl. apply bsum_ext. intros p Hp.
      rewrite <- (lsum_mul_r K), <- (lsum_mul_l K). apply (lsum_ext K). intros xs _.
      rewrite nconj_mul. ring. }
    rewrite <- (lsum_mul_l K) || idtac.
    transitivity (smul (ofR (wt m)) (lsum (K := K) (words M n) (fun xs => smul (ofR (weight_of wt xs))
       (smul (bsum D (fun k => smul (uvec D v site xs k) (site n m k r)))
          (cj (bsum D (fun k => smul (uvec D v site xs k) (site n m k q)))))))).
    { f_equal.
      transitivity (lsum (K := K) (words M n) (fun xs => bsum D (fun l => bsum D (fun p =>
        smul (ofR (weight_of wt xs)) (smul (smul (uvec D v site xs l) (site n m l r)) (cj (smul (uvec D v site xs p) (site n m p q)))))))).
      - rewrite (lsum_bsum K). apply bsum_ext. intros l _. rewrite (lsum_bsum K). reflexivity.
      - apply (lsum_ext K). intros xs _. rewrite nconj_bsum, bsum_mulsum, <- bsum_mul_l.
        apply bsum_ext. intros l _. rewrite <- bsum_mul_l. reflexivity. }
    rewrite <- (lsum_mul_l K). apply (lsum_ext K). intros xs _. rewrite nof_mul. ring.
  Qed.

  (** *** the lambda matrix *)
  Definition lamb_ok (lamb : option xt) (d : nat) (Lm : matK) : Prop :=
    match lamb with
    | None => forall k k', k < d -> k' < d -> Lm k k' = delta k k'
    | Some l =>
        (exists a, shp l = [] /\ get l [] = Fin a /\
           forall k k', k < d -> k' < d -> Lm k k' = smul a (delta k k')) \/
        (exists a, shp l = [d] /\ (forall k, k < d -> get l [k] = Fin (a k)) /\
           forall k k', k < d -> k' < d -> Lm k k' = smul (a k) (delta k k')) \/
        (shp l = [d; d] /\ forall k k', k < d -> k' < d -> get l [k; k'] = Fin (Lm k k'))
    end.
  Definition tlam (d D : nat) (Lm : matK) (c : nat -> nat -> nat -> K) (X : matK) : matK :=
    fun r q => bsum d (fun k => bsum d (fun k' => bsum D (fun l => bsum D (fun p =>
      smul (Lm k k') (smul (c k l r) (smul (X l p) (cj (c k' p q)))))))).
  (** diagonal lambda *)
  Lemma tlam_diag d D Lm a c X r q :
    (forall k k', k < d -> k' < d -> Lm k k' = smul (a k) (delta k k')) ->
    tlam d D Lm c X r q = bsum d (fun k => smul (a k) (bsum D (fun l => bsum D (fun p =>
      smul (c k l r) (smul (X l p) (cj (c k p q))))))).
  Proof.
    intros H. unfold tlam. apply bsum_ext. intros k Hk.
    transitivity (bsum d (fun k' => if k' =? k then smul (a k) (bsum D (fun l => bsum D (fun p =>
      smul (c k l r) (smul (X l p) (cj (c k' p q)))))) else s0)).
    - apply bsum_ext. intros k' Hk'. rewrite <- bsum_mul_l.
      rewrite (Nat.eqb_sym k' k).
      transitivity (bsum D (fun l => bsum D (fun p => smul (smul (a k) (delta k k')) (smul (c k l r) (smul (X l p) (cj (c k' p q))))))).
      { apply bsum_ext. intros l _. apply bsum_ext. intros p _. rewrite H by assumption. reflexivity. }
      unfold delta. destruct (k =? k').
      + apply bsum_ext. intros l _. rewrite <- bsum_mul_l. apply bsum_ext. intros p _. ring.
      + apply bsum_zero. intros l _. apply bsum_zero. intros p _. ring.
    - rewrite (bsum_delta K d k (fun k' => smul (a k) (bsum D (fun l => bsum D (fun p =>
        smul (c k l r) (smul (X l p) (cj (c k' p q)))))))) by exact Hk. reflexivity.
  Qed.
  Definition fin3 (ct : xt) (d D : nat) (c : nat -> nat -> nat -> K) : Prop :=
    shp ct = [d; D; D] /\ forall k i j, k < d -> i < D -> j < D -> get ct [k; i; j] = Fin (c k i j).
  Lemma t_op_ok lamb (dm ct : xt) d D Lm c :
    0 < d -> 0 < D -> shp dm = [D; D] -> fin3 ct d D c -> lamb_ok lamb d Lm ->
    exists T, t_op K lamb dm ct = Ok T /\ shp T = [D; D] /\
      (forall X, (forall i j, i < D -> j < D -> get dm [i; j] = Fin (X i j)) ->
         forall r q, r < D -> q < D -> get T [r; q] = Fin (tlam d D Lm c X r q)) /\
      ((forall i j, i < D -> j < D -> get dm [i; j] = Bad) ->
         forall r q, r < D -> q < D -> get T [r; q] = Bad).
  Proof.
    intros Hd HD Hdm [Hct Hc] Hl.
    assert (Hcc : shp (tconj K ct) = [d; D; D]) by exact Hct.
    assert (Hgc : forall k i j, k < d -> i < D -> j < D -> get (tconj K ct) [k; i; j] = Fin (cj (c k i j))).
    { intros k i j Hk Hi Hj. unfold tconj. cbn [tmap get]. rewrite Hc by assumption. reflexivity. }
    destruct (eins_transfer (S := XK) ct dm (tconj K ct) d D Hct Hdm Hcc) as (T0 & E0 & HT0 & GT0).
    assert (F0 : forall X, (forall i j, i < D -> j < D -> get dm [i; j] = Fin (X i j)) ->
         forall r q, r < D -> q < D -> get T0 [r; q] = Fin (bsum d (fun k => bsum D (fun l => bsum D (fun p =>
           smul (c k l r) (smul (X l p) (cj (c k p q)))))))).
    { intros X HX r q Hr Hq. rewrite GT0 by assumption. apply bsum_xfin. intros k Hk.
      apply bsum_xfin. intros l Hl'. apply bsum_xfin. intros p Hp.
      rewrite Hc, HX, Hgc by assumption. reflexivity. }
    assert (B0 : (forall i j, i < D -> j < D -> get dm [i; j] = Bad) ->
         forall r q, r < D -> q < D -> get T0 [r; q] = Bad).
    { intros HX r q Hr Hq. rewrite GT0 by assumption. apply (bsum_xbad (S := K) d _ 0 Hd).
      apply (bsum_xbad (S := K) D _ 0 HD). apply (bsum_xbad (S := K) D _ 0 HD).
      rewrite Hc, HX by assumption. reflexivity. }
    destruct lamb as [l|]; cbn [lamb_ok] in Hl.
    2:{ exists T0. split; [exact E0|]. split; [exact HT0|]. split; [|exact B0].
        intros X HX r q Hr Hq. rewrite (F0 X HX) by assumption. f_equal.
        rewrite (tlam_diag d D Lm (fun _ => s1)).
        - apply bsum_ext. intros k _. ring.
        - intros k k' Hk Hk'. rewrite Hl by assumption. ring. }
    destruct Hl as [(a & Hs & Ha & HL)|[(a & Hs & Ha & HL)|[Hs Ha]]]; cbn [t_op].
    - unfold ndim. rewrite Hs. cbn [List.length]. bind_with E0. cbn [rbind].
      change (shp (A := xnum K) T0 = [D; D]) in HT0. unfold tzip. rewrite Hs, HT0. cbn [bcast]. change (bcast [] [D; D]) with (Some [D; D]).
      eexists. split; [reflexivity|]. split; [reflexivity|].
      assert (Hb : forall r q, r < D -> q < D -> bproj [D; D] [r; q] = [r; q]).
      { intros r q Hr Hq. apply bproj_self, valid_2. auto. }
      split.
      + intros X HX r q Hr Hq. cbn [get]. rewrite bproj_nil, Ha, Hb by assumption.
        rewrite (F0 X HX) by assumption. cbn [xlift2]. f_equal.
        rewrite (tlam_diag d D Lm (fun _ => a)) by exact HL. symmetry. apply bsum_mul_l.
      + intros HX r q Hr Hq. cbn [get]. rewrite bproj_nil, Ha, Hb by assumption.
        rewrite (B0 HX) by assumption. reflexivity.
    - unfold ndim. rewrite Hs. cbn [List.length].
      destruct (eins_transfer_diag (S := XK) l ct dm (tconj K ct) d D Hs Hct Hdm Hcc) as (T & E & HT & GT).
      exists T. split; [exact E|]. split; [exact HT|]. split.
      + intros X HX r q Hr Hq. rewrite GT by assumption. rewrite (tlam_diag d D Lm a) by exact HL.
        apply bsum_xfin. intros k Hk. rewrite <- bsum_mul_l. apply bsum_xfin. intros i Hi.
        rewrite <- bsum_mul_l. apply bsum_xfin. intros p Hp.
        rewrite Ha, Hc, HX, Hgc by assumption. reflexivity.
      + intros HX r q Hr Hq. rewrite GT by assumption. apply (bsum_xbad (S := K) d _ 0 Hd).
        apply (bsum_xbad (S := K) D _ 0 HD). apply (bsum_xbad (S := K) D _ 0 HD).
        rewrite Ha, Hc, HX by assumption. reflexivity.
    - unfold ndim. rewrite Hs. cbn [List.length].
      destruct (eins_transfer_mat (S := XK) l ct dm (tconj K ct) d D Hs Hct Hdm Hcc) as (T & E & HT & GT).
      exists T. split; [exact E|]. split; [exact HT|]. split.
      + intros X HX r q Hr Hq. rewrite GT by assumption. unfold tlam.
        apply bsum_xfin. intros k Hk. apply bsum_xfin. intros k' Hk'. apply bsum_xfin. intros i Hi.
        apply bsum_xfin. intros p Hp. rewrite Ha, Hc, HX, Hgc by assumption. reflexivity.
      + intros HX r q Hr Hq. rewrite GT by assumption. apply (bsum_xbad (S := K) d _ 0 Hd).
        apply (bsum_xbad (S := K) d _ 0 Hd).
        apply (bsum_xbad (S := K) D _ 0 HD). apply (bsum_xbad (S := K) D _ 0 HD).
        rewrite Ha, Hc, HX by assumption. reflexivity.
  Qed.
  (** lambda as a weighted sum of rank-one matrices *)
  Definition lamb_sum (Lm : matK) (d M : nat) (wt : nat -> R) (phi : nat -> nat -> K) : Prop :=
    forall k k', k < d -> k' < d ->
      Lm k k' = bsum M (fun m => smul (ofR (wt m)) (smul (phi m k) (cj (phi m k')))).
  Definition esite (d : nat) (phi : nat -> nat -> K) (c : nat -> nat -> nat -> K) : nat -> matK :=
    fun m i j => bsum d (fun k => smul (phi m k) (c k i j)).
  Lemma tlam_tstep d D Lm M wt phi c X r q : lamb_sum Lm d M wt phi ->
    tlam d D Lm c X r q = tstep D M wt (esite d phi c) X r q.
  Proof.
    intros H. unfold tlam, tstep, esite.
    transitivity (bsum d (fun k => bsum d (fun k' => bsum D (fun l => bsum D (fun p => bsum M (fun m =>
      smul (ofR (wt m)) (smul (smul (phi m k) (c k l r)) (smul (X l p) (smul (cj (phi m k')) (cj (c k' p q))))))))))).
    { apply bsum_ext. intros k Hk. apply bsum_ext. intros k' Hk'. apply bsum_ext. intros l _. apply bsum_ext. intros p _.
      rewrite H by assumption. rewrite <- bsum_mul_r. apply bsum_ext. intros m _. ring. }
    rewrite bsum_swap5. apply bsum_ext. intros m _. rewrite bsum_swap4. rewrite <- bsum_mul_l.
    apply bsum_ext. intros l _. rewrite <- bsum_mul_l. apply bsum_ext. intros p _.
    rewrite nconj_bsum. rewrite <- (bsum_mul_l K d (X l p)).
    rewrite bsum_mulsum, <- bsum_mul_l. apply bsum_ext. intros k _. rewrite <- bsum_mul_l.
    apply bsum_ext. intros k' _. rewrite nconj_mul. ring.
  Qed.

  (** *** positivity *)
  Definition gtrace (D : nat) v wt M site n : R :=
    lsum (K := R_ops) (words M n) (fun xs => (weight_of wt xs * bsum (S := R_ops) D (fun r => abs2 (uvec D v site xs r)))%R).
  Lemma gram_trace D v wt M site n :
    bsum D (fun r => gram D v wt M site n r r) = ofR (gtrace D v wt M site n).
  Proof.
    unfold gram, gtrace. rewrite <- (lsum_bsum K), nofR_lsum. apply (lsum_ext K). intros xs _.
    rewrite nof_mul, nofR_sum, <- bsum_mul_l. apply bsum_ext. intros r _. rewrite nabs_sq. reflexivity.
  Qed.
  Lemma gtrace_nonneg D v wt M site n : (forall m, m < M -> (0 <= wt m)%R) -> (0 <= gtrace D v wt M site n)%R.
  Proof.
    intros Hw. apply lsumR_nonneg. intros xs Hxs. apply Rmult_le_pos.
    - apply (weight_nonneg wt M); [exact Hw|]. apply (words_letters M n), Hxs.
    - apply bsumR_nonneg. intros. apply abs2_nonneg.
  Qed.
  Lemma gtrace_zero D v wt M site n : (forall m, m < M -> (0 <= wt m)%R) ->
    gtrace D v wt M site n = 0%R -> forall r q, r < D -> q < D -> gram D v wt M site n r q = s0.
  Proof.
    intros Hw Hz r q Hr Hq. unfold gram. apply (lsum_zero K). intros xs Hxs.
    assert (Hx : (weight_of wt xs * bsum (S := R_ops) D (fun r => abs2 (uvec D v site xs r)))%R = 0%R).
    { revert xs Hxs. apply (lsumR_zero (words M n)); [|exact Hz]. intros xs Hxs. apply Rmult_le_pos.
      - apply (weight_nonneg wt M); [exact Hw|]. apply (words_letters M n), Hxs.
      - apply bsumR_nonneg. intros. apply abs2_nonneg. }
    apply Rmult_integral in Hx as [Hx|Hx].
    - rewrite Hx, nof_0. ring.
    - assert (E : abs2 (uvec D v site xs r) = 0%R).
      { apply (bsumR_zero D (fun r => abs2 (uvec D v site xs r))); [intros; apply abs2_nonneg|exact Hx|exact Hr]. }
      apply abs2_zero in E. rewrite E. ring.
  Qed.
  Definition Zw (D : nat) v w wt M site n : R := weighted_partition_fn (K := K) wt M n D v w site.
  Lemma Zw_nonneg D v w wt M site n : (forall m, m < M -> (0 <= wt m)%R) -> (0 <= Zw D v w wt M site n)%R.
  Proof.
    intros Hw. apply lsumR_nonneg. intros xs Hxs. apply Rmult_le_pos.
    - apply (weight_nonneg wt M); [exact Hw|]. apply (words_letters M n), Hxs.
    - apply abs2_nonneg.
  Qed.
  Lemma gram_Z D v w wt M site n :
    bsum D (fun r => bsum D (fun q => smul (w r) (smul (gram D v wt M site n r q) (cj (w q)))))
    = ofR (Zw D v w wt M site n).
  Proof.
    unfold gram, Zw, weighted_partition_fn.
    transitivity (bsum D (fun r => bsum D (fun q => lsum (K := K) (words M n) (fun xs =>
      smul (ofR (weight_of wt xs)) (smul (smul (uvec D v site xs r) (w r)) (cj (smul (uvec D v site xs q) (w q)))))))).
    { apply bsum_ext. intros r _. apply bsum_ext. intros q _.
      rewrite <- (lsum_mul_r K), <- (lsum_mul_l K). apply (lsum_ext K). intros xs _. rewrite nconj_mul. ring. }
    transitivity (lsum (K := K) (words M n) (fun xs => bsum D (fun r => bsum D (fun q =>
      smul (ofR (weight_of wt xs)) (smul (smul (uvec D v site xs r) (w r)) (cj (smul (uvec D v site xs q) (w q)))))))).
    { rewrite (lsum_bsum K). apply bsum_ext. intros r _. rewrite (lsum_bsum K). reflexivity. }
    rewrite nofR_lsum. apply (lsum_ext K). intros xs _. rewrite nof_mul. unfold abs2. rewrite <- nabs_sq.
    rewrite amplitude_uvec, nconj_bsum, bsum_mulsum, <- bsum_mul_l. apply bsum_ext. intros r _.
    rewrite <- bsum_mul_l. reflexivity.
  Qed.

  (** *** the loop *)
  (** state: dm * exp(l) is the Gram matrix, or it is zero and dm is not finite *)
  Definition nstate (D : nat) (X : matK) (st : xt * xr) : Prop :=
    shp (fst st) = [D; D] /\ shp (snd st) = [] /\
    ((exists s C, get (snd st) [] = XFin s /\
        (forall i j, i < D -> j < D -> get (fst st) [i; j] = Fin (C i j)) /\
        forall i j, i < D -> j < D -> smul (C i j) (ofR (exp s)) = X i j) \/
     ((forall i j, i < D -> j < D -> get (fst st) [i; j] = Bad) /\
      forall i j, i < D -> j < D -> X i j = s0)).
  Definition nstateR (D : nat) (X : matK) (r : res (xt * xr)) : Prop :=
    match r with
    | Ok st => nstate D X st
    | Err e => e = AssertionError /\ forall i j, i < D -> j < D -> X i j = s0
    end.
  Lemma nim_ofR_sum (a : K) s t : smul a (ofR (exp s)) = ofR t -> a = ofR (t * / exp s).
  Proof.
    intros H. pose proof (exp_pos s) as Hp.
    assert (Hu : smul (ofR (exp s)) (ofR (/ exp s)) = s1) by (apply nofR_inv; lra).
    rewrite nof_mul, <- H. transitivity (smul a (smul (ofR (exp s)) (ofR (/ exp s)))); [rewrite Hu|]; ring.
  Qed.
  Lemma hermitian_trace_fin (T : xt) D (C : matK) t : shp T = [D; D] ->
    (forall i j, i < D -> j < D -> get T [i; j] = Fin (C i j)) ->
    bsum D (fun i => C i i) = ofR t ->
    exists tr, hermitian_trace K T = Ok tr /\ shp tr = [] /\ get tr [] = XFin t.
  Proof.
    intros Hs HC Ht. unfold hermitian_trace, ttrace. rewrite Hs, Nat.min_id. cbn [rbind].
    assert (Hb : bsum (S := XK) D (fun i => get T [i; i]) = Fin (ofR t)).
    { rewrite <- Ht. apply bsum_xfin. intros i Hi. apply HC; assumption. }
    destruct (ncplx K) eqn:Ec.
    - unfold realify. rewrite Ec.
      rewrite (proj2 (tall_spec _ _)).
      + cbn [assert_ rbind]. eexists. split; [reflexivity|]. split; [reflexivity|].
        cbn [tmap get]. rewrite Hb. cbn [xre]. rewrite nre_of. reflexivity.
      + intros i _. cbn [get]. rewrite Hb. cbn [imag_small]. rewrite nim_of, Rabs_R0.
        destruct (Rle_dec 0 (/ 10000)); [reflexivity|]. exfalso. apply n. lra.
    - eexists. split; [reflexivity|]. split; [reflexivity|].
      cbn [tmap get]. rewrite Hb. cbn [xre]. rewrite nre_of. reflexivity.
  Qed.
  Lemma hermitian_trace_bad (T : xt) D : shp T = [D; D] -> 0 < D ->
    (forall i j, i < D -> j < D -> get T [i; j] = Bad) ->
    (exists tr, hermitian_trace K T = Ok tr /\ shp tr = [] /\ get tr [] = XNaN) \/
    hermitian_trace K T = Err AssertionError.
  Proof.
    intros Hs HD HC. unfold hermitian_trace, ttrace. rewrite Hs, Nat.min_id. cbn [rbind].
    assert (Hb : bsum (S := XK) D (fun i => get T [i; i]) = Bad).
    { apply (bsum_xbad (S := K) D _ 0 HD). apply HC; assumption. }
    destruct (ncplx K) eqn:Ec.
    - right. unfold realify. rewrite Ec. rewrite (tall_false _ _ []); [reflexivity|constructor|].
      cbn [get]. rewrite Hb. reflexivity.
    - left. eexists. split; [reflexivity|]. split; [reflexivity|].
      cbn [tmap get]. rewrite Hb. reflexivity.
  Qed.
  Lemma tdivr_scalar (T : xt) (r : xr) sh : shp T = sh -> shp r = [] ->
    exists T', tdivr K T r = Ok T' /\ shp T' = sh /\
      forall i, valid sh i -> get T' i = xdivr K (get T i) (get r []).
  Proof.
    intros Hs Hr. unfold tdivr, tzip. rewrite Hs, Hr.
    replace (bcast sh []) with (Some sh).
    2:{ unfold bcast. simpl rev. rewrite bcast_rev_nil_r. cbn [option_map]. rewrite rev_involutive. reflexivity. }
    eexists. split; [reflexivity|]. split; [reflexivity|]. intros i Hi. cbn [get].
    rewrite bproj_self by exact Hi. reflexivity.
  Qed.

  Lemma transfer_ok lamb (ct : xt) d D Lm M wt phi c v site n st :
    0 < d -> 0 < D -> fin3 ct d D c -> lamb_ok lamb d Lm -> lamb_sum Lm d M wt phi ->
    (forall m, m < M -> (0 <= wt m)%R) ->
    (forall m i j, m < M -> i < D -> j < D -> site n m i j = esite d phi c m i j) ->
    nstate D (gram D v wt M site n) st ->
    nstateR D (gram D v wt M site (S n)) (transfer_op K lamb st ct).
  Proof.
    intros Hd HD Hct Hl Hls Hw Hsite (Hs1 & Hs2 & Hst). destruct st as [dm l]. cbn [fst snd] in *.
    unfold transfer_op.
    destruct (t_op_ok lamb dm ct d D Lm c Hd HD Hs1 Hct Hl) as (T & ET & HT & GF & GB).
    rewrite ET. cbn [rbind].
    assert (Hstep : forall X r q, r < D -> q < D -> tlam d D Lm c X r q = tstep D M wt (site n) X r q).
    { intros X r q Hr Hq. rewrite (tlam_tstep d D Lm M wt phi) by exact Hls. unfold tstep.
      apply bsum_ext. intros m Hm. f_equal. apply bsum_ext. intros i Hi. apply bsum_ext. intros p Hp.
      rewrite !Hsite by assumption. reflexivity. }
    destruct Hst as [(s & C & Hs & HC & HX)|[Hbad Hz]].
    - assert (HG : forall r q, r < D -> q < D ->
         smul (tlam d D Lm c C r q) (ofR (exp s)) = gram D v wt M site (S n) r q).
      { intros r q Hr Hq. rewrite <- gram_step by assumption. rewrite Hstep by assumption. unfold tstep.
        rewrite <- bsum_mul_r. apply bsum_ext. intros m _.
        transitivity (smul (ofR (wt m)) (smul (bsum D (fun l0 => bsum D (fun p => smul (site n m l0 r) (smul (C l0 p) (cj (site n m p q)))))) (ofR (exp s)))); [ring|].
        f_equal. rewrite <- bsum_mul_r. apply bsum_ext. intros i Hi. rewrite <- bsum_mul_r. apply bsum_ext. intros p Hp.
        rewrite <- HX by assumption. ring. }
      set (g := gtrace D v wt M site (S n)).
      assert (Htr : bsum D (fun i => tlam d D Lm c C i i) = ofR (g * / exp s)).
      { apply nim_ofR_sum. unfold g. rewrite <- gram_trace, <- bsum_mul_r. apply bsum_ext. intros r Hr. apply HG; assumption. }
      destruct (hermitian_trace_fin T D _ _ HT (GF C HC) Htr) as (tr & Etr & Hts & Htg).
      rewrite Etr. cbn [rbind]. unfold tadd.
      destruct (tzip_same xadd l (tlog tr) [] Hs2 Hts) as (l' & El & Hl' & Gl). rewrite El. cbn [rbind].
      destruct (tdivr_scalar T tr [D; D] HT Hts) as (T' & ET' & HT' & GT'). rewrite ET'. cbn [rbind].
      split; [exact HT'|]. split; [exact Hl'|]. cbn [fst snd].
      pose proof (gtrace_nonneg D v wt M site (S n) Hw) as Hg. fold g in Hg. pose proof (exp_pos s) as Hes.
      assert (Hei : (0 < / exp s)%R) by (apply Rinv_0_lt_compat; exact Hes).
      destruct Hg as [Hg|Hg].
      + assert (Hgp : (0 < g * / exp s)%R) by (apply Rmult_lt_0_compat; assumption).
        left. exists (s + ln (g * / exp s))%R, (fun i j => smul (tlam d D Lm c C i j) (ofR (/ (g * / exp s)))).
        split; [|split].
        * rewrite Gl by constructor. unfold tlog. cbn [tmap get]. rewrite Htg, Hs, xlog_pos by exact Hgp. reflexivity.
        * intros i j Hi Hj. rewrite GT' by (apply valid_2; auto). rewrite (GF C HC), Htg by assumption. apply xdivr_pos, Hgp.
        * intros i j Hi Hj. rewrite <- HG by assumption. rewrite <- (ofR_exp_ln K s (g * / exp s)) by exact Hgp. ring.
      + right. split.
        * intros i j Hi Hj. rewrite GT' by (apply valid_2; auto). rewrite (GF C HC), Htg by assumption.
          rewrite <- Hg, Rmult_0_l. simpl. destruct (Req_EM_T 0 0); [reflexivity|congruence].
        * apply (gtrace_zero D v wt M site (S n) Hw). symmetry. exact Hg.
    - assert (Hz' : forall r q, r < D -> q < D -> gram D v wt M site (S n) r q = s0).
      { intros r q Hr Hq. rewrite <- gram_step by assumption. unfold tstep. apply bsum_zero. intros m _.
        rewrite bsum_zero; [ring|]. intros i Hi. apply bsum_zero. intros p Hp. rewrite Hz by assumption. ring. }
      destruct (hermitian_trace_bad T D HT HD (GB Hbad)) as [(tr & Etr & Hts & Htg)|Etr].
      + rewrite Etr. cbn [rbind]. unfold tadd.
        destruct (tzip_same xadd l (tlog tr) [] Hs2 Hts) as (l' & El & Hl' & Gl). rewrite El. cbn [rbind].
        destruct (tdivr_scalar T tr [D; D] HT Hts) as (T' & ET' & HT' & GT'). rewrite ET'. cbn [rbind].
        split; [exact HT'|]. split; [exact Hl'|]. right. split; [|exact Hz'].
        intros i j Hi Hj. cbn [fst]. rewrite GT' by (apply valid_2; auto). rewrite (GB Hbad) by assumption. reflexivity.
      + rewrite Etr. cbn [rbind]. split; [reflexivity|exact Hz'].
  Qed.

  Lemma loop_ok lamb (cts : list xt) d D Lm M wt phi (c : nat -> nat -> nat -> nat -> K) v site :
    0 < d -> 0 < D -> lamb_ok lamb d Lm -> lamb_sum Lm d M wt phi ->
    (forall m, m < M -> (0 <= wt m)%R) ->
    (forall t ct, nth_error cts t = Some ct -> fin3 ct d D (c t)) ->
    (forall t m i j, t < List.length cts -> m < M -> i < D -> j < D -> site t m i j = esite d phi (c t) m i j) ->
    forall st, nstate D (gram D v wt M site 0) st ->
    nstateR D (gram D v wt M site (List.length cts)) (rfold (transfer_op K lamb) st cts).
  Proof.
    intros Hd HD Hl Hls Hw. induction cts as [|ct cts IH] using rev_ind; intros Hf Hsite st Hst; [exact Hst|].
    rewrite rfold_app, app_length. cbn [List.length].
    assert (IH' : nstateR D (gram D v wt M site (List.length cts)) (rfold (transfer_op K lamb) st cts)).
    { apply IH; [| |exact Hst].
      - intros t ct' Ht. apply Hf. rewrite nth_error_app1; [exact Ht|]. apply nth_error_Some. congruence.
      - intros t m i j Ht. apply Hsite. rewrite app_length. simpl. lia. }
    replace (List.length cts + 1) with (S (List.length cts)) by lia.
    destruct (rfold (transfer_op K lamb) st cts) as [st'|e]; cbn [rbind rfold].
    - cbn [nstateR] in IH'.
      pose proof (transfer_ok lamb ct d D Lm M wt phi (c (List.length cts)) v site (List.length cts) st' Hd HD) as H.
      assert (Hfin : fin3 ct d D (c (List.length cts))).
      { apply Hf. rewrite nth_error_app2, Nat.sub_diag by lia. reflexivity. }
      specialize (H Hfin Hl Hls Hw).
      assert (Hs' : forall m i j, m < M -> i < D -> j < D -> site (List.length cts) m i j = esite d phi (c (List.length cts)) m i j).
      { intros m i j. apply Hsite. rewrite app_length. simpl. lia. }
      specialize (H Hs' IH'). destruct (transfer_op K lamb st' ct); exact H.
    - destruct IH' as [-> Hz]. split; [reflexivity|].
      intros r q Hr Hq. rewrite <- gram_step by assumption. unfold tstep. apply bsum_zero. intros m _.
      rewrite bsum_zero; [ring|]. intros i Hi. apply bsum_zero. intros p Hp. rewrite Hz by assumption. ring.
  Qed.

  (** *** get_log_norm *)
  Definition xcore_ok (core : xt) (uniform : bool) (n d D : nat) (c : nat -> nat -> nat -> nat -> K) : Prop :=
    shp core = (if uniform then [d; D; D] else [n; d; D; D]) /\
    forall t k i j, t < n -> k < d -> i < D -> j < D ->
      get core (if uniform then [k; i; j] else [t; k; i; j]) = Fin (c t k i j).

  Theorem get_log_norm_ok (core bvecs : xt) (len : option Z) lamb uniform n d D Lm M wt phi c (v w : vec K) site :
    0 < d -> 0 < D -> xcore_ok core uniform n d D c ->
    shp bvecs = [2; D] -> (forall i, i < D -> get bvecs [0; i] = Fin (v i)) ->
    (forall i, i < D -> get bvecs [1; i] = Fin (w i)) ->
    len = Some (Z.of_nat n) \/ (len = None /\ uniform = false) ->
    lamb_ok lamb d Lm -> lamb_sum Lm d M wt phi -> (forall m, m < M -> (0 <= wt m)%R) ->
    (forall t m i j, t < n -> m < M -> i < D -> j < D -> site t m i j = esite d phi (c t) m i j) ->
    let Z := Zw D v w wt M site n in
    ((0 < Z)%R -> exists L, get_log_norm K core bvecs len lamb = Ok L /\ shp L = [] /\ get L [] = XFin (ln Z)) /\
    (Z = 0%R -> match get_log_norm K core bvecs len lamb with
                | Ok L => shp L = [] /\ xfinite (get L []) = false
                | Err e => e = AssertionError
                end).
  Proof.
    intros Hd HD [Hcs Hcg] Hbs Hv Hwv Hlen Hl Hls Hw Hsite Z.
    assert (Hnd : ndim core = if uniform then 3 else 4) by (unfold ndim; rewrite Hcs; destruct uniform; reflexivity).
    assert (Hd0 : dimE 0 (shp core) = D) by (rewrite Hcs; destruct uniform; reflexivity).
    set (cores := if uniform then repeat core (Z.to_nat (match len with Some l => l | None => 0%Z end))
                  else map (sel0 core) (seq 0 (nth 0 (shp core) 0))).
    assert (Hclen : List.length cores = n).
    { unfold cores. destruct uniform.
      - rewrite repeat_length. destruct Hlen as [->|[_ ?]]; [lia|discriminate].
      - rewrite map_length, seq_length, Hcs. reflexivity. }
    assert (Hfin : forall t ct, nth_error cores t = Some ct -> fin3 ct d D (c t)).
    { intros t ct Ht. assert (Htn : t < n) by (rewrite <- Hclen; apply nth_error_Some; congruence).
      unfold cores in Ht. destruct uniform.
      - apply nth_error_In, repeat_spec in Ht. subst ct. split; [exact Hcs|]. intros k i j. apply Hcg, Htn.
      - rewrite Hcs in Ht. cbn [nth] in Ht. rewrite nth_error_map in Ht.
        rewrite (nth_error_nth' (seq 0 n) 0) in Ht by (rewrite seq_length; exact Htn).
        rewrite seq_nth in Ht by exact Htn. cbn [option_map plus] in Ht. injection Ht as <-.
        split; [cbn [sel0 shp]; rewrite Hcs; reflexivity|]. intros k i j. cbn [sel0 get]. apply Hcg, Htn. }
    (* the initial density matrix *)
    assert (Hu : shp (unsqE 0 (sel0 bvecs 0)) = [] ++ [D; 1]) by (cbn [unsqE sel0 shp]; rewrite Hbs; reflexivity).
    assert (Hu' : shp (tconj K (unsq_front 1 (sel0 bvecs 0))) = [] ++ [1; D]) by (cbn [tconj tmap unsq_front sel0 shp]; rewrite Hbs; reflexivity).
    destruct (matmul_same (S := XK) _ _ [] D 1 D Hu Hu') as (dens & Edens & Hdens & Gdens).
    assert (Hinit : nstate D (gram D v wt M site 0) (dens, tconst [] (XFin 0))).
    { split; [exact Hdens|]. split; [reflexivity|]. left. exists 0%R, (fun i j => smul (v i) (cj (v j))).
      split; [reflexivity|]. split.
      - intros i j Hi Hj. cbn [fst]. specialize (Gdens [] i j ltac:(constructor)). cbn [app] in Gdens.
        etransitivity; [exact Gdens|].
        transitivity (xlift2 (@sadd K) (Fin s0) (xlift2 (@smul K) (get bvecs [0; i]) (xlift1 cj (get bvecs [0; j])))); [reflexivity|].
        rewrite !Hv by assumption. cbn [xlift1 xlift2]. f_equal. ring.
      - intros i j Hi Hj. rewrite exp_0, nof_1. unfold gram. cbn [words]. rewrite (lsum_cons K), (lsum_nil K).
        rewrite !uvec_nil by assumption. unfold weight_of. cbn [fold_right]. rewrite nof_1. ring. }
    assert (Hloop : nstateR D (gram D v wt M site n) (rfold (transfer_op K lamb) (dens, tconst [] (XFin 0)) cores)).
    { rewrite <- Hclen. apply (loop_ok lamb cores d D Lm M wt phi c); try assumption. rewrite Hclen. exact Hsite. }
    assert (Hmain : get_log_norm K core bvecs len lamb =
      (let* st := rfold (transfer_op K lamb) (dens, tconst [] (XFin 0)) cores in
       let (dens, log_norm) := st in
       let* corr := einsum (S := XK) "r,rq,q->" [sel0 bvecs 1; dens; tconj K (sel0 bvecs 1)] in
       let* corr := realify K corr in
       tadd log_norm (tlog corr))).
    { unfold get_log_norm. cbv zeta. rewrite Hnd, Hd0, Hbs. change (dimE 0 [2; D]) with D. rewrite Nat.eqb_refl.
      assert (E1 : ((if uniform then 3 else 4) =? 3) || ((if uniform then 3 else 4) =? 4) = true) by (destruct uniform; reflexivity).
      rewrite E1. cbn [assert_ rbind].
      assert (E2 : (if uniform then 3 else 4) =? 3 = uniform) by (destruct uniform; reflexivity). rewrite E2.
      assert (E3 : uniform || match len with None => true | Some l => (l =? Z.of_nat (nth 0 (shp core) 0%nat))%Z end = true).
      { destruct uniform; [reflexivity|]. rewrite Hcs. cbn [nth orb]. destruct Hlen as [->|[-> _]]; [apply Z.eqb_refl|reflexivity]. }
      rewrite E3. cbn [assert_ rbind].
      assert (E4 : match lamb with None => true | Some l => ndim l <=? 2 end = true).
      { destruct lamb as [l|]; [|reflexivity]. unfold ndim. cbn [lamb_ok] in Hl.
        destruct Hl as [(a & Hs & _)|[(a & Hs & _)|[Hs _]]]; rewrite Hs; reflexivity. }
      rewrite E4. cbn [assert_ rbind].
      assert (E5 : negb (uniform && negb (some_ len)) = true).
      { destruct Hlen as [->|[-> ->]]; [destruct uniform; reflexivity|reflexivity]. }
      rewrite E5. cbn [assert_ rbind nth Nat.eqb]. rewrite Edens. cbn [rbind].
      assert (E6 : negb uniform || negb ((match len with Some l => l | None => 0%Z end) =? -1)%Z = true).
      { destruct Hlen as [->|[-> ->]]; [|reflexivity]. apply orb_true_iff. right. apply negb_true_iff, Z.eqb_neq. lia. }
      rewrite E6. fold cores. reflexivity. }
    rewrite Hmain.
    assert (Hrs : shp (sel0 bvecs 1) = [D]) by (cbn [sel0 shp]; rewrite Hbs; reflexivity).
    assert (Hcr : shp (tconj K (sel0 bvecs 1)) = [D]) by (cbn [tconj tmap sel0 shp]; rewrite Hbs; reflexivity).
    pose proof (gram_Z D v w wt M site n) as HGZ. fold Z in HGZ.
    destruct (rfold (transfer_op K lamb) (dens, tconst [] (XFin 0)) cores) as [[dm l]|e]; cbn [rbind].
    2:{ destruct Hloop as [-> Hz].
        assert (HZ0 : Z = 0%R).
        { apply (nofR_inj K). rewrite <- HGZ, nof_0. apply bsum_zero. intros r Hr. apply bsum_zero. intros q Hq.
          rewrite Hz by assumption. ring. }
        split; [intros HZ; lra|intros _; reflexivity]. }
    destruct Hloop as (Hs1 & Hs2 & Hst). cbn [fst snd] in *.
    destruct (eins_sandwich (S := XK) (sel0 bvecs 1) dm (tconj K (sel0 bvecs 1)) D Hrs Hs1 Hcr) as (T & ET & HT & GT).
    bind_with ET. cbn [rbind]. change (shp (A := xnum K) T = []) in HT. change (get (A := xnum K) T [] = bsum (S := XK) D (fun k => bsum (S := XK) D (fun l0 => smul (s := XK) (get (sel0 bvecs 1) [k]) (smul (s := XK) (get dm [k; l0]) (get (tconj K (sel0 bvecs 1)) [l0]))))) in GT.
    destruct Hst as [(s & C & Hs & HC & HX)|[Hbad Hz]].
    - assert (HTg : get (A := xnum K) T [] = Fin (ofR (Z * / exp s))).
      { rewrite GT. rewrite <- (nim_ofR_sum (bsum D (fun k => bsum D (fun l0 => smul (w k) (smul (C k l0) (cj (w l0)))))) s Z).
        - apply bsum_xfin. intros k Hk. apply bsum_xfin. intros q Hq.
          transitivity (xlift2 (@smul K) (get bvecs [1; k]) (xlift2 (@smul K) (get dm [k; q]) (xlift1 cj (get bvecs [1; q])))); [reflexivity|].
          rewrite HC, !Hwv by assumption. reflexivity.
        - rewrite <- HGZ, <- bsum_mul_r. apply bsum_ext. intros k Hk. rewrite <- bsum_mul_r. apply bsum_ext. intros q Hq.
          rewrite <- HX by assumption. ring. }
      assert (Hreal : exists corr, realify K T = Ok corr /\ shp corr = [] /\ get corr [] = XFin (Z * / exp s)).
      { unfold realify. destruct (ncplx K).
        - rewrite (proj2 (tall_spec _ _)).
          + cbn [assert_ rbind]. eexists. split; [reflexivity|]. split; [exact HT|]. cbn [tmap get].
            rewrite HTg. cbn [xre]. rewrite nre_of. reflexivity.
          + rewrite HT. intros i Hi. apply valid_nil in Hi. subst i. rewrite HTg. cbn [imag_small].
            rewrite nim_of, Rabs_R0. destruct (Rle_dec 0 (/ 10000)); [reflexivity|]. exfalso. apply n0. lra.
        - eexists. split; [reflexivity|]. split; [exact HT|]. cbn [tmap get].
          rewrite HTg. cbn [xre]. rewrite nre_of. reflexivity. }
      destruct Hreal as (corr & Ec & Hcs' & Hcg'). rewrite Ec. cbn [rbind].
      destruct (tzip_same xadd l (tlog corr) [] Hs2 Hcs') as (L & EL & HL & GL).
      unfold tadd. rewrite EL. specialize (GL [] ltac:(constructor)).
      unfold tlog in GL. cbn [tmap get] in GL. rewrite Hs, Hcg' in GL.
      pose proof (exp_pos s) as Hes. assert (Hei : (0 < / exp s)%R) by (apply Rinv_0_lt_compat; exact Hes).
      split.
      + intros HZ. exists L. split; [reflexivity|]. split; [exact HL|]. rewrite GL.
        rewrite xlog_pos by (apply Rmult_lt_0_compat; assumption). cbn [xadd]. f_equal.
        rewrite ln_mult by assumption. rewrite ln_Rinv by exact Hes. rewrite ln_exp. ring.
      + intros HZ. split; [exact HL|]. rewrite GL, HZ, Rmult_0_l, xlog_0. reflexivity.
    - assert (HZ0 : Z = 0%R).
      { apply (nofR_inj K). rewrite <- HGZ, nof_0. apply bsum_zero. intros r Hr. apply bsum_zero. intros q Hq.
        rewrite Hz by assumption. ring. }
      split; [intros HZ; lra|intros _].
      assert (HTg : get (A := xnum K) T [] = Bad).
      { rewrite GT. apply (bsum_xbad (S := K) D _ 0 HD). apply (bsum_xbad (S := K) D _ 0 HD).
        transitivity (xlift2 (@smul K) (get bvecs [1; 0]) (xlift2 (@smul K) (get dm [0; 0]) (xlift1 cj (get bvecs [1; 0])))); [reflexivity|].
        rewrite Hbad, !Hwv by assumption. reflexivity. }
      unfold realify. destruct (ncplx K).
      + rewrite (tall_false _ _ []); [reflexivity|rewrite HT; constructor|]. rewrite HTg. reflexivity.
      + cbn [rbind]. assert (Hcs' : shp (tlog (tmap (xre K) T)) = []) by exact HT.
        destruct (tzip_same xadd l _ [] Hs2 Hcs') as (L & EL & HL & GL). unfold tadd. rewrite EL.
        split; [exact HL|]. rewrite GL by constructor. unfold tlog. cbn [tmap get]. rewrite HTg. cbn [xre xlog].
        destruct (get l []); reflexivity.
  Qed.
End LogNorm.
