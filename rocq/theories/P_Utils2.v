(** * P_Utils2: properties C24-C29 (torchmps/utils2.py and the initialisers of mps_base.py). *)
From Coq Require Import Reals Lra Lia Permutation.
From Verif Require Import Base Scalars Tensor Utils2 MpsBase Spec MatSpec Utils2Proofs MatTop.

(** ** C24 *)
(** shape_broadcast succeeds exactly on broadcastable lists, with the broadcast shape *)
Theorem C24_shape_broadcast_iff l s : shape_broadcast l = Ok s <-> is_broadcast l s.
Proof.
  split; [|apply shape_broadcast_Ok].
  intros E. pose proof (shape_broadcast_spec l) as H. rewrite E in H. exact H.
Qed.
(** and raises ValueError otherwise *)
Theorem C24_shape_broadcast_error l :
  (forall s, ~ is_broadcast l s) -> shape_broadcast l = Err ValueError.
Proof.
  intros Hn. pose proof (shape_broadcast_spec l) as H. destruct (shape_broadcast l) as [s|e].
  - elim (Hn s H).
  - destruct H as [-> _]. reflexivity.
Qed.
(** the order of the list is irrelevant *)
Theorem C24_shape_broadcast_perm l l' : Permutation l l' -> shape_broadcast l = shape_broadcast l'.
Proof.
  intros Hp. pose proof (shape_broadcast_spec l) as H. pose proof (shape_broadcast_spec l') as H'.
  destruct (shape_broadcast l) as [s|e].
  - apply (is_broadcast_perm _ _ _ Hp) in H. symmetry. apply shape_broadcast_Ok, H.
  - destruct H as [-> Hn]. symmetry. apply C24_shape_broadcast_error.
    intros s Hs. apply (Hn s). apply (is_broadcast_perm l' l); [apply Permutation_sym, Hp|exact Hs].
Qed.
Example C24_met : shape_broadcast [[3; 1]; [2; 1; 4]; []] = Ok [2; 3; 4]
  /\ shape_broadcast [[3]; [2]] = Err ValueError.
Proof. split; reflexivity. Qed.

(** ** C25 *)
(** Each output has the broadcast batch shape followed by its own non-batch shape, and
    every entry is the input entry at the projected batch index. *)
Theorem C25_batch_broadcast {A} (ts : list (tensor A)) (nnb : list nat) (c : list nat) :
  Forall2 (fun t n => n <= List.length (shp t)) ts nnb ->
  is_broadcast (map (fun p => droplast (snd p) (shp (fst p))) (combine ts nnb)) c ->
  exists out, batch_broadcast ts nnb = Ok out /\
    Forall2 (fun p t' =>
        shp t' = c ++ lastn (snd p) (shp (fst p)) /\
        forall b r, valid c b -> valid (lastn (snd p) (shp (fst p))) r ->
          get t' (b ++ r) = get (fst p) (bc_read (droplast (snd p) (shp (fst p))) b ++ r))
      (combine ts nnb) out.
Proof.
  intros Hf Hb.
  destruct (batch_broadcast_any ts nnb c (Forall2_length' _ _ _ Hf) Hf Hb) as (out & E & H).
  exists out. split; [exact E|]. clear E Hf Hb. induction H as [|p t' l l' Hpt H' IH]; [constructor|]. constructor; [|exact IH]. clear IH H'. revert Hpt.
  intros [Hs Hg]. split; [exact Hs|]. intros b r Hbv Hr. apply Hg; assumption.
Qed.
Theorem C25_batch_broadcast_error {A} (ts : list (tensor A)) (nnb : list nat) :
  Forall2 (fun t n => n <= List.length (shp t)) ts nnb -> 2 <= List.length ts ->
  (forall c, ~ is_broadcast (map (fun p => droplast (snd p) (shp (fst p))) (combine ts nnb)) c) ->
  batch_broadcast ts nnb = Err ValueError.
Proof. intros Hf H2 Hn. exact (batch_broadcast_err ts nnb (Forall2_length' _ _ _ Hf) Hf H2 Hn). Qed.
(** a list of different length than the list of non-batch counts, or a count exceeding
    the number of axes, is refused by an assertion *)
Theorem C25_batch_broadcast_assert {A} (ts : list (tensor A)) (nnb : list nat) :
  ~ Forall2 (fun t n => n <= List.length (shp t)) ts nnb ->
  batch_broadcast ts nnb = Err AssertionError.
Proof.
  intros Hn. unfold batch_broadcast. destruct (Nat.eqb_spec (List.length ts) (List.length nnb)) as [E|E]; [|reflexivity].
  cbn [assert_ rbind].
  destruct (forallb (fun p : tensor A * nat => snd p <=? ndim (fst p)) (combine ts nnb)) eqn:Ef; [|reflexivity].
  exfalso. apply Hn. clear Hn. revert nnb E Ef. induction ts as [|t ts IH]; intros [|n nnb] E Ef; try discriminate; [constructor|].
  cbn [combine forallb fst snd] in Ef. apply andb_true_iff in Ef as [E1 E2]. constructor.
  - apply Nat.leb_le, E1.
  - apply IH; [simpl in E; congruence|exact E2].
Qed.
(** batch_to: the batch axes of the tensor (all but its last nnb) are broadcast together with the given batch shape *)
Theorem C25_batch_to {A} (t : tensor A) (bsh : list nat) (nnb : nat) (c : list nat) :
  nnb <= List.length (shp t) -> is_broadcast [droplast nnb (shp t); bsh] c ->
  exists t', batch_to t bsh nnb = Ok t' /\ shp t' = c ++ lastn nnb (shp t) /\
    forall b r, valid c b -> valid (lastn nnb (shp t)) r ->
      get t' (b ++ r) = get t (bc_read (droplast nnb (shp t)) b ++ r).
Proof.
  intros Hl Hb. unfold batch_to.
  destruct (C25_batch_broadcast [t; mkT bsh (fun _ => get t [])] [nnb; 0] c) as (out & E & H).
  - apply Forall2_cons; [exact Hl|]. apply Forall2_cons; [apply Nat.le_0_l|apply Forall2_nil].
  - cbn [combine map fst snd shp]. rewrite droplast_0. exact Hb.
  - rewrite E. cbn [rbind]. cbn [combine] in H. inversion H as [|? o ? out' [H1 H2] Hr]; subst. exists o. split; [reflexivity|]. split; [exact H1|exact H2].
Qed.
Theorem C25_batch_to_error {A} (t : tensor A) (bsh : list nat) (nnb : nat) :
  nnb <= List.length (shp t) -> (forall c, ~ is_broadcast [droplast nnb (shp t); bsh] c) -> batch_to t bsh nnb = Err ValueError.
Proof.
  intros Hl Hb. unfold batch_to.
  rewrite (C25_batch_broadcast_error [t; mkT bsh (fun _ => get t [])] [nnb; 0]); [reflexivity| |cbn; lia|].
  - apply Forall2_cons; [exact Hl|]. apply Forall2_cons; [apply Nat.le_0_l|apply Forall2_nil].
  - intros c. cbn [combine map fst snd shp]. rewrite droplast_0. apply Hb.
Qed.
Example C25_met : exists out,
  batch_broadcast [mkT [3; 1; 2] (fun i => nth 0 i 0); mkT [5] (fun i => 0)] [1; 0] = Ok out
  /\ map shp out = [[3; 5; 2]; [3; 5]].
Proof. eexists. split; reflexivity. Qed.

(** ** C26 *)
Theorem C26_phaseify_modulus (t : tensor cplx) (u : tensor R) :
  shp (phaseify t u) = shp t /\ forall i, c_abs (get (phaseify t u) i) = c_abs (get t i).
Proof.
  split; [reflexivity|]. intros i. unfold phaseify. cbn [get]. generalize (get t i) as z. intros [x y].
  unfold c_abs, c_mul, phase. cbn [fst snd]. f_equal.
  set (a := (2 * PI * get u i)%R). pose proof (sin2_cos2 a) as H. unfold Rsqr in H.
  replace ((x * cos a - y * sin a) * (x * cos a - y * sin a) + (x * sin a + y * cos a) * (x * sin a + y * cos a))%R
    with ((x * x + y * y) * (sin a * sin a + cos a * cos a))%R by ring.
  rewrite H. ring.
Qed.
(** and the phase is arbitrary: every unit phase is reached by some random outcome *)
Example C26_met : get (phaseify (mkT [1] (fun _ => (1, 0)%R)) (mkT [1] (fun _ => (/ 4)%R))) [0] = (0, 1)%R.
Proof.
  unfold phaseify, c_mul, phase. cbn [get fst snd].
  replace (2 * PI * / 4)%R with (PI / 2)%R by field. rewrite cos_PI2, sin_PI2. f_equal; ring.
Qed.

(** ** C27 *)
Lemma rfloor_spec r : (IZR (rfloor r) <= r < IZR (rfloor r) + 1)%R.
Proof.
  unfold rfloor. destruct (archimed r) as [H1 H2]. rewrite minus_IZR. lra.
Qed.
Lemma rfloor_unique r z : (IZR z <= r < IZR z + 1)%R -> rfloor r = z.
Proof.
  intros H. pose proof (rfloor_spec r) as H'.
  assert (z < rfloor r + 1)%Z by (apply lt_IZR; rewrite plus_IZR; lra).
  assert (rfloor r < z + 1)%Z by (apply lt_IZR; rewrite plus_IZR; lra). lia.
Qed.
Lemma ln_4_bounds : (1 < ln 4 < 2)%R.
Proof.
  split.
  - rewrite <- (ln_exp 1). apply ln_increasing; [apply exp_pos|]. pose proof exp_le_3. lra.
  - replace 4%R with (2 * 2)%R by ring. rewrite ln_mult by lra.
    assert (ln 2 < 1)%R; [|lra]. rewrite <- (ln_exp 1). apply ln_increasing; [lra|].
    apply exp_ineq1. lra.
Qed.
(** the claim p <= x < 2p fails at x = 4 (the source takes the natural logarithm) *)
Theorem C27_floor2_refuted : floor2 4 = 2%R /\ ~ (floor2 4 <= 4 < 2 * floor2 4)%R.
Proof.
  assert (E : floor2 4 = 2%R).
  { unfold floor2. rewrite (rfloor_unique (ln 4) 1) by (pose proof ln_4_bounds; lra). simpl. ring. }
  rewrite E. split; [reflexivity|]. lra.
Qed.
(** what the source computes: 2^k for the integer k with e^k <= x < e^(k+1); always a
    power of two, and for x >= 1 it never exceeds x.  Missing: the upper bound x < 2p. *)
Theorem C27_floor2_partial x : (0 < x)%R ->
  exists k : Z, floor2 x = powerRZ 2 k /\ (exp (IZR k) <= x < exp (IZR k + 1))%R /\
    ((1 <= x)%R -> (floor2 x <= x)%R).
Proof.
  intros Hx. exists (rfloor (ln x)). split; [reflexivity|]. pose proof (rfloor_spec (ln x)) as [H1 H2].
  assert (He : (exp (IZR (rfloor (ln x))) <= x)%R).
  { rewrite <- (exp_ln x Hx) at 2. destruct H1 as [H1|H1]; [left; apply exp_increasing, H1|right; rewrite H1; reflexivity]. }
  split.
  - split; [exact He|]. rewrite <- (exp_ln x Hx) at 1. apply exp_increasing, H2.
  - intros H1x. unfold floor2.
    assert (Hk : (0 <= rfloor (ln x))%Z).
    { assert (0 <= ln x)%R by (rewrite <- ln_1; destruct H1x as [H1x|H1x]; [left; apply ln_increasing; lra|rewrite H1x; right; reflexivity]).
      assert (-1 < rfloor (ln x))%Z; [|lia]. apply lt_IZR. simpl. lra. }
    eapply Rle_trans; [|exact He]. revert Hk. generalize (rfloor (ln x)) as k. clear. intros k Hk.
    destruct (Z_of_nat_complete k Hk) as [n ->]. rewrite <- pow_powerRZ, <- INR_IZR_INZ.
    induction n as [|n IH]; [simpl; rewrite exp_0; lra|].
    rewrite S_INR, exp_plus. cbn [pow].
    assert (2 < exp 1)%R by (pose proof (exp_ineq1 1); lra).
    assert (0 < 2 ^ n)%R by (apply pow_lt; lra).
    assert (0 < exp (INR n))%R by apply exp_pos.
    specialize (IH ltac:(lia)). nra.
Qed.

(** ** C28 *)
Lemma batch_to_ok {A} (t : tensor A) (c : list nat) m n : shp t = [m; n] ->
  exists t', batch_to t c 2 = Ok t' /\ shp t' = c ++ [m; n] /\
    forall b i j, valid c b -> i < m -> j < n -> get t' (b ++ [i; j]) = get t [i; j].
Proof.
  intros Hs. unfold batch_to.
  destruct (C25_batch_broadcast [t; mkT c (fun _ => get t [])] [2; 0] c) as (out & E & H).
  - repeat constructor; simpl; rewrite ?Hs; simpl; lia.
  - cbn [combine map fst snd shp]. rewrite Hs, droplast_0.
    split; [discriminate|]. split; [intros u [<-|[<-|[]]]; simpl; lia|].
    split; [exists c; simpl; auto|]. intros k Hk. split; [|exists c; simpl; auto].
    intros u [<-|[<-|[]]]; [left; unfold axis; simpl; destruct k; reflexivity|auto].
  - rewrite E. cbn [rbind]. cbn [combine] in H.
    inversion H as [|? o ? out' [H1 H2] Hr]; subst. exists o. split; [reflexivity|].
    cbn [fst snd] in *. rewrite Hs in *. change (lastn 2 [m; n]) with [m; n] in *. split; [exact H1|].
    intros b i j Hb Hi Hj. rewrite H2; [|exact Hb|apply valid_2; auto]. reflexivity.
Qed.
Lemma init_shape_check_ok pre k m n :
  (m = n \/ fold_right Nat.mul 1 pre = 1) -> init_shape_check (pre ++ [k; m; n]) = Ok tt.
Proof.
  intros H. unfold init_shape_check. rewrite app_length. cbn [List.length].
  replace (3 <=? List.length pre + 3) with true by (symmetry; apply Nat.leb_le; lia). cbn [assert_ rbind].
  rewrite dimE_3_1, dimE_3_0, (droplast_app pre [k; m; n] 3 eq_refl).
  destruct (Nat.eqb_spec m n); cbn [negb]; [reflexivity|].
  destruct H as [H|H]; [contradiction|]. rewrite H. reflexivity.
Qed.
(** every slice is the identity plus noise/sqrt(rows*cols) times the normal sample,
    in the complex case up to a phase of modulus one *)
Theorem C28_near_eye_init pre k m n is_complex noise z u :
  (m = n \/ fold_right Nat.mul 1 pre = 1) -> shp z = pre ++ [k; m; n] ->
  exists t, near_eye_init (pre ++ [k; m; n]) is_complex noise z u = Ok t /\
    shp t = pre ++ [k; m; n] /\
    forall b i j, valid (pre ++ [k]) b -> i < m -> j < n ->
      exists w : cplx, c_abs w = 1%R /\ (is_complex = false -> w = c_ofR 1) /\
        get t (b ++ [i; j]) =
          c_add (if i =? j then c_ofR 1 else c_ofR 0)
                (c_mul (c_ofR (noise / sqrt (INR (m * n)) * get z (b ++ [i; j]))) w).
Proof.
  intros Hsq Hz. unfold near_eye_init. rewrite init_shape_check_ok by exact Hsq. cbn [rbind].
  replace (pre ++ [k; m; n]) with ((pre ++ [k]) ++ [m; n]) by (rewrite <- app_assoc; reflexivity).
  rewrite (lastn_app (pre ++ [k]) [m; n] 2 eq_refl), (droplast_app (pre ++ [k]) [m; n] 2 eq_refl), dimE_2_1, dimE_2_0.
  match goal with |- context [batch_to ?e ?c 2] => destruct (batch_to_ok e c m n eq_refl) as (t' & E & Hs & Hg) end.
  rewrite E. cbn [rbind].
  match goal with |- context [tzip c_add t' ?dd] => destruct (tzip_same c_add t' dd ((pre ++ [k]) ++ [m; n]) Hs) as (o & Eo & Hso & Hgo) end.
  { destruct is_complex; reflexivity. }
  exists o. split; [exact Eo|]. split; [exact Hso|].
  intros b i j Hb Hi Hj. rewrite Hgo by (apply valid_app; [exact Hb|apply valid_2; auto]).
  rewrite Hg by assumption. cbn [get nth].
  destruct is_complex.
  - exists (phase (get u (b ++ [i; j]))). split; [|split; [discriminate|reflexivity]].
    unfold c_abs, phase. cbn [fst snd]. pose proof (sin2_cos2 (2 * PI * get u (b ++ [i; j]))) as H. unfold Rsqr in H.
    rewrite Rplus_comm in H. rewrite H. apply sqrt_1.
  - exists (c_ofR 1). split; [unfold c_abs, c_ofR; cbn [fst snd]; rewrite Rmult_0_l, Rplus_0_r, Rmult_1_l; apply sqrt_1|].
    split; [reflexivity|]. cbn [get]. f_equal. unfold c_mul, c_ofR. cbn [fst snd]. f_equal; ring.
Qed.
Theorem C28_zero_noise pre k m n is_complex z u :
  (m = n \/ fold_right Nat.mul 1 pre = 1) -> shp z = pre ++ [k; m; n] ->
  exists t, near_eye_init (pre ++ [k; m; n]) is_complex 0 z u = Ok t /\
    forall b i j, valid (pre ++ [k]) b -> i < m -> j < n ->
      get t (b ++ [i; j]) = if i =? j then c_ofR 1 else c_ofR 0.
Proof.
  intros Hsq Hz. destruct (C28_near_eye_init pre k m n is_complex 0 z u Hsq Hz) as (t & E & Hs & H).
  exists t. split; [exact E|]. intros b i j Hb Hi Hj. destruct (H b i j Hb Hi Hj) as (w & _ & _ & ->).
  unfold Rdiv. rewrite !Rmult_0_l.
  destruct (i =? j); unfold c_add, c_mul, c_ofR; cbn [fst snd]; f_equal; ring.
Qed.
Theorem C28_nonsquare_batch_rejected pre k m n is_complex noise z u :
  m <> n -> fold_right Nat.mul 1 pre <> 1 ->
  near_eye_init (pre ++ [k; m; n]) is_complex noise z u = Err ValueError.
Proof.
  intros Hmn Hp. unfold near_eye_init, init_shape_check. rewrite app_length. cbn [List.length].
  replace (3 <=? List.length pre + 3) with true by (symmetry; apply Nat.leb_le; lia). cbn [assert_ rbind].
  rewrite dimE_3_1, dimE_3_0, (droplast_app pre [k; m; n] 3 eq_refl).
  destruct (Nat.eqb_spec m n); [contradiction|]. cbn [negb].
  destruct (Nat.eqb_spec (fold_right Nat.mul 1 pre) 1); [contradiction|]. reflexivity.
Qed.
Example C28_met : (3 = 3 \/ fold_right Nat.mul 1 [4] = 1) /\ valid ([4] ++ [2]) [3; 1].
Proof. split; [left; reflexivity|repeat constructor]. Qed.

(** ** C29 *)
(** rel_std has no effect: the documented entries s/bond_dim * sample are not produced *)
Theorem C29_rel_std_ignored shape is_complex s1 s2 z u :
  normal_init shape is_complex s1 z u = normal_init shape is_complex s2 z u.
Proof. reflexivity. Qed.
Theorem C29_rel_std_refuted :
  exists shape s z u t, normal_init shape false s z u = Ok t /\
    get t [0; 0; 0] <> c_ofR (s / INR (last shape 0%nat) * get z [0; 0; 0]).
Proof.
  exists [1; 1; 1], 2%R, (mkT [1; 1; 1] (fun _ => 1%R)), (mkT [1; 1; 1] (fun _ => 0%R)).
  eexists. split; [reflexivity|]. cbn. unfold c_ofR. intros H. injection H as H.
  lra.
Qed.
(** what holds: entries are 1/bond_dim times the sample (the claim for rel_std = 1 only).
    Missing: the factor rel_std. *)
Theorem C29_normal_init_partial pre k m n is_complex rel_std z u :
  (m = n \/ fold_right Nat.mul 1 pre = 1) -> 0 < n -> shp z = pre ++ [k; m; n] ->
  exists t, normal_init (pre ++ [k; m; n]) is_complex rel_std z u = Ok t /\
    shp t = pre ++ [k; m; n] /\
    forall idx, exists w : cplx, c_abs w = 1%R /\ (is_complex = false -> w = c_ofR 1) /\
      get t idx = c_mul (c_ofR (1 / INR n * get z idx)) w.
Proof.
  intros Hsq Hn Hz. unfold normal_init. rewrite init_shape_check_ok by exact Hsq. cbn [rbind].
  rewrite dimE_3_0. destruct (Nat.eqb_spec n 0); [lia|]. cbn [rbind]. eexists. split; [reflexivity|].
  split; [destruct is_complex; reflexivity|]. intros idx. destruct is_complex.
  - exists (phase (get u idx)). split; [|split; [discriminate|reflexivity]].
    unfold c_abs, phase. cbn [fst snd]. pose proof (sin2_cos2 (2 * PI * get u idx)) as H. unfold Rsqr in H.
    rewrite Rplus_comm in H. rewrite H. apply sqrt_1.
  - exists (c_ofR 1). split; [unfold c_abs, c_ofR; cbn [fst snd]; rewrite Rmult_0_l, Rplus_0_r, Rmult_1_l; apply sqrt_1|].
    split; [reflexivity|]. cbn [get]. unfold c_mul, c_ofR. cbn [fst snd]. f_equal; ring.
Qed.

(** the shapes that are rejected: fewer than three axes, non-square batches, and a last axis of size 0 (division by
    the bond dimension); nothing else is *)
Theorem C29_rejected shape is_complex rel_std z u :
  (List.length shape < 3 -> normal_init shape is_complex rel_std z u = Err AssertionError) /\
  (forall pre k m n, shape = pre ++ [k; m; n] -> m <> n -> fold_right Nat.mul 1 pre <> 1 ->
     normal_init shape is_complex rel_std z u = Err ValueError) /\
  (forall pre k m, shape = pre ++ [k; m; 0] -> m = 0 \/ fold_right Nat.mul 1 pre = 1 ->
     normal_init shape is_complex rel_std z u = Err ZeroDivisionError).
Proof.
  split; [|split].
  - intros H. unfold normal_init, init_shape_check. destruct (Nat.leb_spec 3 (List.length shape)); [lia|reflexivity].
  - intros pre k m n -> Hmn Hp. unfold normal_init, init_shape_check. rewrite app_length. cbn [List.length].
    replace (3 <=? List.length pre + 3) with true by (symmetry; apply Nat.leb_le; lia). cbn [assert_ rbind].
    rewrite dimE_3_1, dimE_3_0, (droplast_app pre [k; m; n] 3 eq_refl).
    destruct (Nat.eqb_spec m n); [contradiction|]. cbn [negb].
    destruct (Nat.eqb_spec (fold_right Nat.mul 1 pre) 1); [contradiction|]. reflexivity.
  - intros pre k m -> H. unfold normal_init. rewrite init_shape_check_ok by exact H. cbn [rbind]. rewrite dimE_3_0. reflexivity.
Qed.

Print Assumptions C24_shape_broadcast_iff.
Print Assumptions C24_shape_broadcast_error.
Print Assumptions C24_shape_broadcast_perm.
Print Assumptions C25_batch_broadcast.
Print Assumptions C25_batch_broadcast_error.
Print Assumptions C25_batch_broadcast_assert.
Print Assumptions C25_batch_to.
Print Assumptions C25_batch_to_error.
Print Assumptions C26_phaseify_modulus.
Print Assumptions C27_floor2_refuted.
Print Assumptions C27_floor2_partial.
Print Assumptions C28_near_eye_init.
Print Assumptions C28_zero_noise.
Print Assumptions C28_nonsquare_batch_rejected.
Print Assumptions C29_rel_std_ignored.
Print Assumptions C29_rel_std_refuted.
Print Assumptions C29_normal_init_partial.
Print Assumptions C29_rejected.
