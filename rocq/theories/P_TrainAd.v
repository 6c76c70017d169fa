(** * P_TrainAd: C100 and C101, train_script.py with adaptive_mode = True. *)
From Coq Require Import Reals Lra Permutation.
From Verif Require Import Base Scalars Tensor Spec LinAlg Utils2Proofs Contractables Utils UtilsSpec TorchMps TmSpec TmProofs TmFinal P_Mps P_Mps3 P_Mps4 Adaptive AdMerge AdKinds AdSpec AdUnmerge AdFlip AdState AdCall AdHealthy P_Ad AdExact Crash AdCrash P_AdExact TrainScript TrainSpec P_Train TrainAd TrainAdSpec.

(** *** answers and losses of any table of scores *)
Section Scores.
  Variables (lab : nat -> nat) (O b : nat) (f : nat -> nat -> R).
  Lemma answers_f idx (scores : tensor R_cring) : 0 < O -> List.length idx = b -> shp scores = [b; O] ->
    (forall r o, r < b -> o < O -> get scores [r; o] = f (nth r idx 0) o) ->
    exists ps c, preds scores = Ok ps /\ accuracy b ps (map lab idx) = (INR c / INR b)%R /\
      count (fun i => first_max O (f i) (lab i)) idx c.
  Proof.
    intros HO Hb Hs Hg. unfold preds. rewrite Hs. cbn [nth].
    assert (Hrow : forall r, r < b -> row scores r = map (f (nth r idx 0)) (seq 0 O)).
    { intros r Hr. unfold row. rewrite Hs. cbn [nth]. apply map_ext_in. intros o Ho. apply in_seq in Ho. apply Hg; lia. }
    destruct (rmap_Forall2 (fun r => argmax (row scores r)) (fun r p => first_max O (f (nth r idx 0)) p) (seq 0 b)) as (ps & Eps & Hps).
    { intros r Hr. apply in_seq in Hr. rewrite Hrow by lia. destruct (argmax_ok (f (nth r idx 0)) O HO) as (p & Ep & Hp). eauto. }
    destruct (Forall2_seq _ _ _ _ 0 Hps) as [Lp Gp].
    exists ps, (fold_right plus 0 (map (fun r => if nth r ps 0 =? nth r (map lab idx) 0 then 1 else 0) (seq 0 (List.length idx)))).
    split; [exact Eps|]. split; [unfold accuracy; rewrite map_length; reflexivity|].
    apply count_sum. intros r Hr. rewrite Nat.eqb_eq, (nth_indep (map lab idx) 0 (lab 0)) by (rewrite map_length; exact Hr). rewrite map_nth.
    specialize (Gp r ltac:(lia)). split.
    - intros <-. exact Gp.
    - intros Hm. exact (first_max_unique _ _ _ _ Gp Hm).
  Qed.
  Lemma losses_f idx (scores : tensor R_cring) : List.length idx = b -> shp scores = [b; O] ->
    (forall r o, r < b -> o < O -> get scores [r; o] = f (nth r idx 0) o) -> (forall i, In i idx -> lab i < O) ->
    loss_fun scores (map lab idx) =
      Ok (fold_right Rplus 0 (map (fun i => ln (fold_right Rplus 0 (map (fun o => exp (f i o)) (seq 0 O))) - f i (lab i)) idx) / INR (List.length idx))%R.
  Proof.
    intros Hb Hs Hg Hl. unfold loss_fun. rewrite Hs. cbn [nth].
    rewrite (rmap_all _ (fun r => ln (fold_right Rplus 0 (map (fun o => exp (f (nth r idx 0%nat) o)) (seq 0 O))) - f (nth r idx 0%nat) (lab (nth r idx 0%nat)))%R).
    - cbn [rbind]. rewrite <- Hb. rewrite (map_nth_seq (fun i => ln (fold_right Rplus 0 (map (fun o => exp (f i o)) (seq 0 O))) - f i (lab i))%R). rewrite map_length. reflexivity.
    - intros r Hr. apply in_seq in Hr. cbv zeta. rewrite (nth_indep (map lab idx) 0 (lab 0)) by (rewrite map_length; lia). rewrite map_nth.
      specialize (Hl (nth r idx 0) ltac:(apply nth_In; lia)). destruct (Nat.ltb_spec (lab (nth r idx 0)) O); [|lia].
      f_equal. unfold row. rewrite Hs. cbn [nth]. f_equal.
      + f_equal. f_equal. rewrite map_map. apply map_ext_in. intros o Ho. apply in_seq in Ho. f_equal. apply Hg; lia.
      + apply Hg; lia.
  Qed.
End Scores.

Section P.
  Variable svd : tensor R_ops -> tensor R_ops * tensor R_ops * tensor R_ops.
  Variables (pix : nat -> nat -> R) (lab : nat -> nat).
  Variables (N O D b : nat) (per par : bool) (label : option Z) (path : mpath) (std cutoff : R) (thr : Z) (rnd : nat -> list nat -> R).
  Variable m0 : ad_mps.
  Notation pos := (label_number N label).
  Notation active m := (g_active (a_reg m)).
  (** an adaptive model whose flips do not fail for its sizes (C48): default feature map, output core not at the
      left end, no side of the output core with exactly two sites *)
  Definition ad_working : Prop :=
    ad_init N O D 2 per par label path std cutoff thr rnd = Ok m0 /\ no_path path /\
    1 <= N /\ 0 < pos /\ pos <> 2 /\ N - pos <> 2 /\ 0 < D /\ 0 < O /\ (0 < cutoff)%R.
  (** [m] is the model after [k] calls with batches of size b and any training steps; [flips] as computed from k *)
  Definition reached (k : nat) (m : ad_mps) : Prop := exists flips, run svd m0 (k * b) flips m /\ a_cfg m = a_cfg m0 /\
    (0 < b -> (Z.of_nat b <= thr)%Z -> Z.of_nat flips = if k =? 0 then 0%Z else ((Z.of_nat k - 1) * Z.of_nat b / thr)%Z).
  (** the next call flips the merge state, and the singular value decompositions of the pairs give a core that cannot be
      split or rescaled *)
  Definition sick (m : ad_mps) : Prop := flip_due m /\ ~ healthy svd D 2 O cutoff (active m).

  Lemma reached_0 : ad_working -> reached 0 m0.
  Proof. intros _. exists 0. split; [apply Run_0|]. split; reflexivity. Qed.

  Lemma working_cfg : ad_working -> m_input (a_cfg m0) = N /\ m_feature (a_cfg m0) = 2 /\ m_fmap (a_cfg m0) = None /\ path_true (m_path (a_cfg m0)) = Ok false /\ m_periodic (a_cfg m0) = per.
  Proof.
    intros (Hi & Hp & HN & _ & _ & _ & HD & _). pose proof (two N O D 2 per par label path std cutoff thr rnd m0 Hi HN HD) as H2.
    destruct (init_inv _ _ _ _ _ _ _ _ _ _ _ _ m0 Hi H2 HD) as (mods & _ & _ & Iv & _ & _ & _ & _ & _ & _ & E1 & _ & E2 & E3 & _).
    split; [apply (i_in _ _ _ _ _ _ Iv)|]. split; [apply (i_feat _ _ _ _ _ _ Iv)|]. split; [exact E3|]. split; [rewrite E2; apply no_path_off, Hp|exact E1].
  Qed.
  Lemma one_call k m g idx : ad_working -> reached k m -> List.length idx = b ->
    exists inputs, images pix N b idx = Ok inputs /\ shows pix N b idx inputs /\
      ((exists y m', ad_forward svd m inputs g = ((Ok y, Some b), Some m') /\ shp y = [b; O] /\
          (forall r o, r < b -> o < O -> get y [r; o] = ad_score pix D per m' (nth r idx 0) o) /\ reached (S k) m' /\
          ((flip_due m -> healthy svd D 2 O cutoff (active m) /\ lossless svd D 2 O cutoff (active m)) -> same_scores O D per m m')) \/
       (exists e g' om, ad_forward svd m inputs g = ((Err e, g'), om) /\ sick m)).
  Proof.
    intros Hw (flips & Hr & Hc & Hfl) Hb. destruct (working_cfg Hw) as (C1 & C2 & C3 & C4 & C5). pose proof Hw as (Hi & Hp & HN & L0 & L2 & L2' & HD & HO & Hcut).
    set (inputs := mkT (A := R_cring) [b; N] (fun i => pix (nth (nth 0 i 0) idx 0) (nth 1 i 0))).
    exists inputs. split; [unfold images; rewrite Hb, Nat.eqb_refl; reflexivity|]. split; [split; [reflexivity|]; intros; reflexivity|].
    assert (He : embedded_input m inputs = Ok (embed_default R_cring inputs)).
    { unfold embedded_input. rewrite Hc. rewrite (route_off R_cring _ _ C4). cbn [rbind]. unfold mps_embed. rewrite C1, C2, C3. cbn [ndim inputs shp List.length Nat.eqb orb assert_ rbind]. unfold size. cbn [shp inputs nth]. rewrite Nat.eqb_refl. reflexivity. }
    assert (HB : size 0 (embed_default R_cring inputs) = b) by reflexivity.
    pose proof (run_after svd m0 m _ _ Hr) as Ha.
    pose proof (after_history svd _ _ Ha) as Hh.
    pose proof (two N O D 2 per par label path std cutoff thr rnd m0 Hi HN HD) as H2.
    pose proof (invm svd N O D 2 per par label path std cutoff thr rnd m0 m Hi HN HD Ha) as Iv.
    destruct (ad_forward svd m inputs g) as [[[y|e] g'] om] eqn:Ef.
    - left. destruct om as [m'|].
      2: { exfalso. clear -Ef. unfold ad_forward in Ef. destruct (let* x1 := _ in _) as [x2|]; [|discriminate Ef]. destruct (region_step _ _ _) as [[reg info]|]; [|discriminate Ef].
           destruct (region_forward _ _ _ _ _ _) as [[y1|e1] g1]; [|discriminate Ef]. destruct info as [[nw sv]|]; [|discriminate Ef]. destruct (update_lists m nw sv) as [[b1 s1]|]; discriminate Ef. }
      destruct (C71_returns svd N O D 2 per par label path std cutoff thr rnd m0 m Hi HN HD Hh inputs _ g b y g' m' He HB Ef) as (n & En & Eg & Hy & Gy).
      assert (n = b) as ->. { unfold contracted in En. destruct (Nat.eqb_spec pos 0); [lia|]. cbn [andb] in En. congruence. }
      subst g'. exists y, m'. split; [reflexivity|]. split; [exact Hy|].
      destruct (call_facts svd N O D 2 pos m inputs g _ m' HD H2 Iv Ef) as (Iv' & Ec & Et & Ecut & _ & _ & Cs). rewrite He in Cs.
      split; [|split].
      + intros r o Hrr Ho. rewrite Gy by assumption. unfold ad_score.
        assert (Es : source b r = r) by (unfold source; destruct (Nat.eqb_spec b 1); lia). rewrite Es.
        reflexivity.
      + exists (if offset m' =? offset m then flips else flips + 1). split.
        { replace (S k * b) with (k * b + size 0 (embed_default R_cring inputs)) by (rewrite HB; lia). eapply Run_call; [exact Hr|exact He|exact Ef]. }
        split; [congruence|]. intros Hb0 Hbt. specialize (Hfl Hb0 Hbt). cbn [Nat.eqb].
        destruct (C52_schedule svd N O D 2 per par label path std cutoff thr rnd m0 m Hi HN HD _ _ Hr) as [Q _].
        destruct (C52_flip_iff svd N O D 2 per par label path std cutoff thr rnd m0 m Hi HN HD inputs _ g _ m' Ha He Ef) as [Q2 _].
        set (c := g_counter (a_reg m)) in *. replace (Z.of_nat (S k) - 1)%Z with (Z.of_nat k) by lia. rewrite Nat2Z.inj_mul in Q. set (bz := Z.of_nat b) in *. assert (0 < bz)%Z by (unfold bz; lia).
        assert (Bc : (k = 0 /\ flips = 0 /\ c = 0%Z) \/ (bz <= c < thr + bz)%Z).
        { destruct (Nat.eqb_spec k 0) as [->|Hk].
          - left. assert (flips = 0) by lia. subst flips. split; [reflexivity|]. split; [reflexivity|]. lia.
          - right. pose proof (Z.div_mod ((Z.of_nat k - 1) * bz) thr ltac:(lia)) as Dm. rewrite <- Hfl in Dm. pose proof (Z.mod_pos_bound ((Z.of_nat k - 1) * bz) thr ltac:(lia)). lia. }
        destruct (Nat.eqb_spec (offset m') (offset m)) as [Eo|Eo].
        * assert (c < thr)%Z by (destruct (Z_lt_le_dec c thr); [assumption|exfalso; apply (proj2 Q2); assumption]).
          apply (Z.div_unique _ _ _ c); [left; lia|]. lia.
        * assert (thr <= c)%Z by (apply Q2; exact Eo). rewrite Nat2Z.inj_add. apply (Z.div_unique _ _ _ (c - thr)%Z); [left; lia|]. lia.
      + intros Hl. assert (Pm' : g_active (a_reg m') = g_active (a_reg m) -> same_scores O D per m m') by (intros E v o Ho; rewrite E; reflexivity).
        destruct (Z_le_dec (g_threshold (a_reg m)) (g_counter (a_reg m))) as [Hf|Hf].
        * destruct (Hl Hf) as [Hhe Hlo]. pose proof (cut_m svd N O D 2 per par label path std cutoff thr rnd m0 m Hi HN HD Ha) as Cm. rewrite <- Cm in Hhe, Hlo, Hcut.
          assert (Nb : ~ AdKinds.bad (g_offset (a_reg m)) pos (N - pos)) by (rewrite bad_iff; lia).
          destruct (call_flip_exact svd N O D 2 pos HD H2 ltac:(lia) HO m inputs _ g b Iv Hcut He HB Hf Hhe Nb) as (m1 & _ & _ & [Qe _] & Q). specialize (Qe Hlo).
          assert (m1 = m').
          { clear -Q Ef. destruct (contracted pos ((g_offset (a_reg m) + 1) mod 2) g b) as [n|ex]; [destruct Q as (y1 & E1 & _)|destruct Q as (g1 & E1 & _)]; rewrite Ef in E1; congruence. }
          subst m1. destruct Qe as (W1 & W2 & _ & _ & Qe). intros v o Ho.
          assert (NR : forall m2, inv N O D 2 pos m2 -> Forall (no_region R_cring) (active m2)).
          { intros m2 I2. pose proof (gr_active _ _ _ _ _ _ (i_reg _ _ _ _ _ _ I2)) as Ga. eapply Forall_impl; [|apply (merged_no_region D 2 O _ pos (N - pos) _ (gr_off _ _ _ _ _ _ (i_reg _ _ _ _ _ _ I2)) ltac:(pose proof (i_le _ _ _ _ _ _ I2); lia) Ga)].
            intros z Hz. destruct z; exact Hz. }
          rewrite <- (closed_output D 2 O per _ v o HD W1 (NR m Iv)), <- (closed_output D 2 O per _ v o HD W2 (NR m' Iv')). apply closed_eqc; [exact HD|]. apply Qe, Ho.
        * apply Pm'. apply Z.nle_gt, Z.leb_gt in Hf. rewrite Hf in Cs. destruct Cs as (Eo & _ & E0 & E1 & _). unfold g_active, g_list. rewrite Eo, E0, E1. reflexivity.
    - right. exists e, g', om. split; [reflexivity|].
      assert (Ou : forall fl, call_outcome N pos (offset m) fl g b = Rows b).
      { intros fl. unfold call_outcome, contracted. destruct (Nat.eqb_spec pos 2); [lia|]. destruct (Nat.eqb_spec (N - pos) 2); [lia|]. destruct (Nat.eqb_spec pos 0); [lia|]. cbn [andb orb]. destruct fl; reflexivity. }
      assert (Ex : forall flip : bool, (flip = true <-> flip_due m) -> (flip_due m -> healthy svd D 2 O cutoff (active m)) -> False).
      { intros flip E1 E2. pose proof (C48_exact svd N O D 2 per par label path std cutoff thr rnd m0 m Hi HN HD Hh ltac:(lia) HO Hcut inputs _ g b flip He HB E1 E2) as Q. rewrite Ou in Q.
        destruct Q as (y & m' & E & _). rewrite Ef in E. discriminate E. }
      assert (Fd : flip_due m). { unfold flip_due. destruct (Z_le_dec (g_threshold (a_reg m)) (g_counter (a_reg m))) as [|Hf]; [assumption|]. exfalso. apply (Ex false); [split; [discriminate|intros; contradiction]|intros; contradiction]. }
      split; [exact Fd|]. intros Hhe. apply (Ex true); [split; [intros _; exact Fd|reflexivity]|intros _; exact Hhe].
  Qed.

  Variable optst : Type.
  Variable opt : optst -> ad_mps -> tensor R_cring -> list nat -> optst * ad_mps.
  (** the optimiser only gives the parameters new values (demanded for the models that can occur) *)
  Definition ad_optimises : Prop := forall os k m x l, reached k m -> retrains m (snd (opt os m x l)).
  Lemma retrains_reached k m m' : reached k m -> retrains m m' -> reached k m'.
  Proof.
    intros (fl & Hr & Hc & Hf) (l0 & l1 & R0 & R1 & ->). exists fl. split; [apply Run_train; assumption|]. split; [exact Hc|exact Hf].
  Qed.
  Lemma ad_train_loop bs : ad_working -> ad_optimises -> Forall (fun x => List.length x = b) bs -> 0 < b ->
    (forall i, In i (List.concat bs) -> lab i < O) ->
    forall os m g rl ra k, reached k m ->
      (exists os' m' loss hits,
        rfold (ad_train_step svd pix lab N b optst opt) (os, m, g, rl, ra) bs =
          Ok (os', m', (match bs with [] => g | _ => Some b end), (rl + loss)%R, (ra + INR hits / INR b)%R) /\
        reached (k + List.length bs) m' /\ hits <= List.length bs * b /\
        ad_pass svd pix lab N O D b per optst opt os m bs os' m' loss hits) \/
      (exists e bs1 idx bs2 os1 m1 loss hits, rfold (ad_train_step svd pix lab N b optst opt) (os, m, g, rl, ra) bs = Err e /\
        bs = bs1 ++ idx :: bs2 /\ ad_pass svd pix lab N O D b per optst opt os m bs1 os1 m1 loss hits /\ reached (k + List.length bs1) m1 /\ sick m1).
  Proof.
    intros Hw Ho Hbs Hb0. assert (HO : 0 < O) by (unfold ad_working in Hw; tauto). induction Hbs as [|idx bs Hlen Hbs IH]; intros Hlab os m g rl ra k Hm.
    - left. exists os, m, 0%R, 0. split; [|split; [rewrite Nat.add_0_r; exact Hm|split; [lia|constructor]]]. cbn [rfold INR]. f_equal. f_equal; [f_equal; lra|]. unfold Rdiv. lra.
    - destruct (one_call k m g idx Hw Hm Hlen) as (inputs & Ei & Hsh & [(y & m1 & Ef & Hs & Hg & Hm1 & _)|(e & g' & om & Ef & Hsick)]).
      + destruct (answers_f lab O b (ad_score pix D per m1) idx y HO Hlen Hs Hg) as (ps & c & Ep & Ea & Hc).
        pose proof (losses_f lab O b (ad_score pix D per m1) idx y Hlen Hs Hg ltac:(intros i Hi; apply Hlab; cbn [List.concat]; apply in_or_app; left; exact Hi)) as El.
        destruct (opt os m1 inputs (map lab idx)) as [os1 m2] eqn:Eo.
        assert (Hm2 : reached (S k) m2) by (eapply retrains_reached; [exact Hm1|]; specialize (Ho os _ m1 inputs (map lab idx) Hm1); rewrite Eo in Ho; exact Ho).
        assert (Estep : ad_train_step svd pix lab N b optst opt (os, m, g, rl, ra) idx =
          Ok (os1, m2, Some b, (rl + ad_mean_loss pix lab O D per m1 idx)%R, (ra + INR c / INR b)%R)).
        { unfold ad_train_step, call. rewrite Ei. cbn [rbind]. rewrite Ef. cbn [rbind]. rewrite Ep. cbn [rbind]. rewrite El. cbn [rbind].
          rewrite Eo, Ea. reflexivity. }
        destruct (IH ltac:(intros i Hi; apply Hlab; cbn [List.concat]; apply in_or_app; right; exact Hi) os1 m2 (Some b)
          (rl + ad_mean_loss pix lab O D per m1 idx)%R (ra + INR c / INR b)%R (S k) Hm2) as [(os' & m' & loss & hits & E & Hm' & Hh & Hpass)|(e & bs1 & idx1 & bs2 & os3 & m3 & loss & hits & E & Eb & Hpass & Hm3 & Hs3)].
        * left. exists os', m', (ad_mean_loss pix lab O D per m1 idx + loss)%R, (c + hits). split; [|split; [|split]].
          -- cbn [rfold]. rewrite Estep. cbn [rbind]. rewrite E. f_equal.
             replace (match bs with [] => Some b | _ => Some b end) with (Some b) by (destruct bs; reflexivity).
             rewrite plus_INR. f_equal; [f_equal; lra|]. unfold Rdiv. lra.
          -- cbn [List.length]. replace (k + S (List.length bs)) with (S k + List.length bs) by lia. exact Hm'.
          -- apply count_le in Hc. cbn [List.length]. lia.
          -- econstructor; [split; [exact Hsh|eauto]|exact Hc|exact Eo|exact Hpass].
        * right. exists e, (idx :: bs1), idx1, bs2, os3, m3, (ad_mean_loss pix lab O D per m1 idx + loss)%R, (c + hits).
          split; [cbn [rfold]; rewrite Estep; cbn [rbind]; exact E|]. split; [rewrite Eb; reflexivity|].
          split; [econstructor; [split; [exact Hsh|eauto]|exact Hc|exact Eo|exact Hpass]|].
          split; [|exact Hs3]. cbn [List.length]. replace (k + S (List.length bs1)) with (S k + List.length bs1) by lia. exact Hm3.
      + right. exists e, [], idx, bs, os, m, 0%R, 0. split; [|split; [reflexivity|split; [constructor|split; [cbn [List.length]; rewrite Nat.add_0_r; exact Hm|exact Hsick]]]].
        cbn [rfold]. unfold ad_train_step at 1, call. rewrite Ei. cbn [rbind]. rewrite Ef. reflexivity.
  Qed.
  Lemma ad_test_loop bs : ad_working -> Forall (fun x => List.length x = b) bs ->
    forall m g ra k, reached k m ->
      (exists m' hits,
        rfold (ad_test_step svd pix lab N b) (m, g, ra) bs = Ok (m', (match bs with [] => g | _ => Some b end), (ra + INR hits / INR b)%R) /\
        reached (k + List.length bs) m' /\ hits <= List.length bs * b /\ ad_test_pass svd pix lab N O D b per m bs m' hits) \/
      (exists e bs1 idx bs2 m1 hits, rfold (ad_test_step svd pix lab N b) (m, g, ra) bs = Err e /\ bs = bs1 ++ idx :: bs2 /\
        ad_test_pass svd pix lab N O D b per m bs1 m1 hits /\ reached (k + List.length bs1) m1 /\ sick m1).
  Proof.
    intros Hw Hbs. assert (HO : 0 < O) by (unfold ad_working in Hw; tauto). induction Hbs as [|idx bs Hlen Hbs IH]; intros m g ra k Hm.
    - left. exists m, 0. split; [|split; [rewrite Nat.add_0_r; exact Hm|split; [lia|constructor]]]. cbn [rfold INR]. f_equal. f_equal. unfold Rdiv. lra.
    - destruct (one_call k m g idx Hw Hm Hlen) as (inputs & Ei & Hsh & [(y & m1 & Ef & Hs & Hg & Hm1 & _)|(e & g' & om & Ef & Hsick)]).
      + destruct (answers_f lab O b (ad_score pix D per m1) idx y HO Hlen Hs Hg) as (ps & c & Ep & Ea & Hc).
        assert (Estep : ad_test_step svd pix lab N b (m, g, ra) idx = Ok (m1, Some b, (ra + INR c / INR b)%R)).
        { unfold ad_test_step, call. rewrite Ei. cbn [rbind]. rewrite Ef. cbn [rbind]. rewrite Ep. cbn [rbind]. rewrite Ea. reflexivity. }
        destruct (IH m1 (Some b) (ra + INR c / INR b)%R (S k) Hm1) as [(m' & hits & E & Hm' & Hh & Hpass)|(e & bs1 & idx1 & bs2 & m3 & hits & E & Eb & Hpass & Hm3 & Hs3)].
        * left. exists m', (c + hits). split; [|split; [|split]].
          -- cbn [rfold]. rewrite Estep. cbn [rbind]. rewrite E. f_equal.
             replace (match bs with [] => Some b | _ => Some b end) with (Some b) by (destruct bs; reflexivity).
             rewrite plus_INR. f_equal. unfold Rdiv. lra.
          -- cbn [List.length]. replace (k + S (List.length bs)) with (S k + List.length bs) by lia. exact Hm'.
          -- apply count_le in Hc. cbn [List.length]. lia.
          -- econstructor; [split; [exact Hsh|eauto]|exact Hc|exact Hpass].
        * right. exists e, (idx :: bs1), idx1, bs2, m3, (c + hits).
          split; [cbn [rfold]; rewrite Estep; cbn [rbind]; exact E|]. split; [rewrite Eb; reflexivity|].
          split; [econstructor; [split; [exact Hsh|eauto]|exact Hc|exact Hpass]|].
          split; [|exact Hs3]. cbn [List.length]. replace (k + S (List.length bs1)) with (S k + List.length bs1) by lia. exact Hm3.
      + right. exists e, [], idx, bs, m, 0. split; [|split; [reflexivity|split; [constructor|split; [cbn [List.length]; rewrite Nat.add_0_r; exact Hm|exact Hsick]]]].
        cbn [rfold]. unfold ad_test_step at 1, call. rewrite Ei. cbn [rbind]. rewrite Ef. reflexivity.
  Qed.
  (** the next call flips, and something may be lost *)
  Definition lossy (m : ad_mps) : Prop := flip_due m /\ ~ (healthy svd D 2 O cutoff (active m) /\ lossless svd D 2 O cutoff (active m)).
  Lemma ad_test_same bs : ad_working -> Forall (fun x => List.length x = b) bs ->
    forall m g ra k mi, reached k m -> same_scores O D per mi m ->
      (exists m' hits,
        rfold (ad_test_step svd pix lab N b) (m, g, ra) bs = Ok (m', (match bs with [] => g | _ => Some b end), (ra + INR hits / INR b)%R) /\
        same_scores O D per mi m' /\ reached (k + List.length bs) m' /\ count (ad_classifies pix lab O D per mi) (List.concat bs) hits) \/
      (exists bs1 idx bs2 m1 hits, bs = bs1 ++ idx :: bs2 /\ ad_test_pass svd pix lab N O D b per m bs1 m1 hits /\ reached (k + List.length bs1) m1 /\ lossy m1).
  Proof.
    intros Hw Hbs. assert (HO : 0 < O) by (unfold ad_working in Hw; tauto). induction Hbs as [|idx bs Hlen Hbs IH]; intros m g ra k mi Hm Hss.
    - left. exists m, 0. split; [|split; [exact Hss|split; [rewrite Nat.add_0_r; exact Hm|constructor]]]. cbn [rfold INR]. f_equal. f_equal. unfold Rdiv. lra.
    - destruct (one_call k m g idx Hw Hm Hlen) as (inputs & Ei & Hsh & [(y & m1 & Ef & Hs & Hg & Hm1 & Hsame)|(e & g' & om & Ef & Hf & Hn)]).
      + destruct (Classical_Prop.classic (lossy m)) as [Hl|Hl]; [right; exists [], idx, bs, m, 0; split; [reflexivity|split; [constructor|split; [cbn [List.length]; rewrite Nat.add_0_r; exact Hm|exact Hl]]]|].
        assert (Ss : same_scores O D per mi m1).
        { assert (Q : same_scores O D per m m1); [|intros v o Ho; rewrite (Hss v o Ho); apply Q, Ho]. apply Hsame. intros Hf. apply Classical_Prop.NNPP. intros Hn. apply Hl. split; assumption. }
        assert (Hg' : forall r o, r < b -> o < O -> get y [r; o] = ad_score pix D per mi (nth r idx 0) o).
        { intros r o Hr Ho. rewrite (Hg r o Hr Ho). unfold ad_score. symmetry. apply Ss, Ho. }
        destruct (answers_f lab O b (ad_score pix D per mi) idx y HO Hlen Hs Hg') as (ps & c & Ep & Ea & Hc).
        destruct (answers_f lab O b (ad_score pix D per m1) idx y HO Hlen Hs Hg) as (_ & c1 & _ & _ & Hc1).
        assert (Estep : ad_test_step svd pix lab N b (m, g, ra) idx = Ok (m1, Some b, (ra + INR c / INR b)%R)).
        { unfold ad_test_step, call. rewrite Ei. cbn [rbind]. rewrite Ef. cbn [rbind]. rewrite Ep. cbn [rbind]. rewrite Ea. reflexivity. }
        destruct (IH m1 (Some b) (ra + INR c / INR b)%R (S k) mi Hm1 Ss) as [(m' & hits & E & Hs' & Hm' & Hh)|(bs1 & idx1 & bs2 & m3 & hits & Eb & Hpass & Hm3 & Hs3)].
        * left. exists m', (c + hits). split; [|split; [exact Hs'|split]].
          -- cbn [rfold]. rewrite Estep. cbn [rbind]. rewrite E. f_equal.
             replace (match bs with [] => Some b | _ => Some b end) with (Some b) by (destruct bs; reflexivity).
             rewrite plus_INR. f_equal. unfold Rdiv. lra.
          -- cbn [List.length]. replace (k + S (List.length bs)) with (S k + List.length bs) by lia. exact Hm'.
          -- cbn [List.concat]. apply count_app; assumption.
        * right. exists (idx :: bs1), idx1, bs2, m3, (c1 + hits). split; [rewrite Eb; reflexivity|].
          split; [econstructor; [split; [exact Hsh|eauto]|exact Hc1|exact Hpass]|].
          split; [|exact Hs3]. cbn [List.length]. replace (k + S (List.length bs1)) with (S k + List.length bs1) by lia. exact Hm3.
      + right. exists [], idx, bs, m, 0. split; [reflexivity|]. split; [constructor|]. split; [cbn [List.length]; rewrite Nat.add_0_r; exact Hm|]. split; [exact Hf|]. intros [H _]. exact (Hn H).
  Qed.

  (** C100: one training epoch.  Either it returns, having made one call and one update per full batch, with the exact mean
      loss and accuracy (those of the model after the flip, if the call flips); or some call was due to flip a model with a
      pair of cores that torch.svd and the cutoff make vanish. *)
  Theorem C100_train_epoch (ntrain : nat) (order : list nat) (os : optst) (m : ad_mps) (g : option nat) (k : nat) :
    ad_working -> ad_optimises -> reached k m -> 0 < b <= ntrain -> Permutation order (seq 0 ntrain) -> (forall i, i < ntrain -> lab i < O) ->
    (exists bs rest os' m' loss hits,
      cuts b order bs rest /\ List.length bs = ntrain / b /\
      ad_pass svd pix lab N O D b per optst opt os m bs os' m' loss hits /\ reached (k + ntrain / b) m' /\ hits <= ntrain / b * b /\
      ad_train_epoch svd pix lab N b optst opt ntrain order os m g =
        Ok (os', m', Some b, (loss / INR (ntrain / b))%R, (INR hits / INR (ntrain / b * b))%R)) \/
    (exists e bs rest bs1 idx bs2 os1 m1 loss hits, ad_train_epoch svd pix lab N b optst opt ntrain order os m g = Err e /\
      cuts b order bs rest /\ List.length bs = ntrain / b /\ bs = bs1 ++ idx :: bs2 /\
      ad_pass svd pix lab N O D b per optst opt os m bs1 os1 m1 loss hits /\ reached (k + List.length bs1) m1 /\ sick m1).
  Proof.
    intros Hw Ho Hm [Hb Hbn] Hp Hlab. destruct (order_cut b order ntrain Hb Hp) as (bs & rest & El & Hc & Hn).
    pose proof Hc as (Eo & Hbs & Hr). unfold ad_train_epoch. rewrite El. cbn [rbind].
    destruct (ad_train_loop bs Hw Ho Hbs Hb) with (os := os) (m := m) (g := g) (rl := 0%R) (ra := 0%R) (k := k) as [(os' & m' & loss & hits & E & Hm' & Hh & Hpass)|(e & bs1 & idx & bs2 & os1 & m1 & loss & hits & E & Eb & Hpass & Hm1 & Hs)]; [|exact Hm| |].
    { intros i Hi. apply Hlab. assert (Hin : In i order) by (rewrite Eo; apply in_or_app; left; exact Hi).
      apply (Permutation_in i Hp) in Hin. apply in_seq in Hin. lia. }
    - left. rewrite E. cbn [rbind]. rewrite !average_ok by exact Hb. destruct (Nat.ltb_spec ntrain b) as [H|H]; [lia|]. cbn [rbind].
      exists bs, rest, os', m', loss, hits. split; [exact Hc|]. split; [exact Hn|]. split; [exact Hpass|]. rewrite <- Hn. split; [exact Hm'|].
      split; [exact Hh|]. assert (Hpos : 0 < List.length bs) by (rewrite Hn; apply Nat.div_str_pos; lia).
      destruct bs as [|b1 bs]; [cbn in Hpos; lia|]. set (nb := List.length (b1 :: bs)) in *.
      rewrite mult_INR. f_equal. assert (0 < INR nb)%R by (apply lt_0_INR; exact Hpos). assert (0 < INR b)%R by (apply lt_0_INR; exact Hb).
      f_equal; [f_equal|]; field; lra.
    - right. exists e, bs, rest, bs1, idx, bs2, os1, m1, loss, hits. rewrite E. split; [reflexivity|]. split; [exact Hc|]. split; [exact Hn|]. split; [exact Eb|]. split; [exact Hpass|]. split; assumption.
  Qed.
  Lemma firstn_used order ntest bs rest : 0 < b -> cuts b order bs rest -> List.length bs = ntest / b -> firstn (ntest / b * b) order = List.concat bs.
  Proof. intros Hb (Eo & Hbs & Hr) Hn. rewrite Eo, <- Hn, <- (concat_length b bs Hbs), firstn_app, Nat.sub_diag, firstn_all, firstn_O, app_nil_r. reflexivity. Qed.
  (** C100: one test epoch; the model that is returned is the one after the calls of the test loop *)
  Theorem C100_test_epoch (ntest : nat) (order : list nat) (m : ad_mps) (g : option nat) (k : nat) :
    ad_working -> reached k m -> 0 < b <= ntest -> Permutation order (seq 0 ntest) ->
    (exists bs rest m' hits, cuts b order bs rest /\ List.length bs = ntest / b /\
      ad_test_pass svd pix lab N O D b per m bs m' hits /\ reached (k + ntest / b) m' /\ hits <= ntest / b * b /\
      ad_test_epoch svd pix lab N b ntest order m g = Ok (m', Some b, (INR hits / INR (ntest / b * b))%R)) \/
    (exists e bs rest bs1 idx bs2 m1 hits, ad_test_epoch svd pix lab N b ntest order m g = Err e /\
      cuts b order bs rest /\ List.length bs = ntest / b /\ bs = bs1 ++ idx :: bs2 /\
      ad_test_pass svd pix lab N O D b per m bs1 m1 hits /\ reached (k + List.length bs1) m1 /\ sick m1).
  Proof.
    intros Hw Hm [Hb Hbn] Hp. destruct (order_cut b order ntest Hb Hp) as (bs & rest & El & Hc & Hn).
    pose proof Hc as (Eo & Hbs & Hr). unfold ad_test_epoch. rewrite El. cbn [rbind].
    destruct (ad_test_loop bs Hw Hbs m g 0%R k Hm) as [(m' & hits & E & Hm' & Hh & Hpass)|(e & bs1 & idx & bs2 & m1 & hits & E & Eb & Hpass & Hm1 & Hs)].
    - left. rewrite E. cbn [rbind]. rewrite !average_ok by exact Hb. destruct (Nat.ltb_spec ntest b) as [H|H]; [lia|]. cbn [rbind].
      exists bs, rest, m', hits. split; [exact Hc|]. split; [exact Hn|]. split; [exact Hpass|]. rewrite <- Hn. split; [exact Hm'|].
      split; [exact Hh|]. assert (Hpos : 0 < List.length bs) by (rewrite Hn; apply Nat.div_str_pos; lia).
      destruct bs as [|b1 bs]; [cbn in Hpos; lia|]. set (nb := List.length (b1 :: bs)) in *.
      rewrite mult_INR. f_equal. assert (0 < INR nb)%R by (apply lt_0_INR; exact Hpos). assert (0 < INR b)%R by (apply lt_0_INR; exact Hb).
      f_equal; field; lra.
    - right. exists e, bs, rest, bs1, idx, bs2, m1, hits. rewrite E. split; [reflexivity|]. split; [exact Hc|]. split; [exact Hn|]. split; [exact Eb|]. split; [exact Hpass|]. split; assumption.
  Qed.
  (** C101: if every flip during a test epoch is lossless, the printed accuracy is the fraction of the images used that the model
      had classified correctly before the test epoch, and the model computes the same scores afterwards. *)
  Theorem C101_lossless_test_partial (ntest : nat) (order : list nat) (m : ad_mps) (g : option nat) (k : nat) :
    ad_working -> reached k m -> 0 < b <= ntest -> Permutation order (seq 0 ntest) ->
    (exists m' hits, count (ad_classifies pix lab O D per m) (firstn (ntest / b * b) order) hits /\
      ad_test_epoch svd pix lab N b ntest order m g = Ok (m', Some b, (INR hits / INR (ntest / b * b))%R) /\ same_scores O D per m m' /\ reached (k + ntest / b) m') \/
    (exists bs rest bs1 idx bs2 m1 hits, cuts b order bs rest /\ List.length bs = ntest / b /\ bs = bs1 ++ idx :: bs2 /\
      ad_test_pass svd pix lab N O D b per m bs1 m1 hits /\ reached (k + List.length bs1) m1 /\ lossy m1).
  Proof.
    intros Hw Hm [Hb Hbn] Hp. destruct (order_cut b order ntest Hb Hp) as (bs & rest & El & Hc & Hn).
    pose proof Hc as (Eo & Hbs & Hr). unfold ad_test_epoch. rewrite El. cbn [rbind]. rewrite (firstn_used order ntest bs rest Hb Hc Hn).
    destruct (ad_test_same bs Hw Hbs m g 0%R k m Hm ltac:(intros v o _; reflexivity)) as [(m' & hits & E & Hs & Hm' & Hh)|(bs1 & idx & bs2 & m1 & hits & Eb & Hpass & Hm1 & Hs)].
    - left. exists m', hits. split; [exact Hh|]. rewrite E. cbn [rbind]. rewrite !average_ok by exact Hb. destruct (Nat.ltb_spec ntest b) as [H|H]; [lia|]. cbn [rbind].
      rewrite <- Hn. split; [|split; assumption]. assert (Hpos : 0 < List.length bs) by (rewrite Hn; apply Nat.div_str_pos; lia).
      destruct bs as [|b1 bs]; [cbn in Hpos; lia|]. set (nb := List.length (b1 :: bs)) in *.
      rewrite mult_INR. f_equal. assert (0 < INR nb)%R by (apply lt_0_INR; exact Hpos). assert (0 < INR b)%R by (apply lt_0_INR; exact Hb).
      f_equal; field; lra.
    - right. exists bs, rest, bs1, idx, bs2, m1, hits. split; [exact Hc|]. split; [exact Hn|]. split; [exact Eb|]. split; [exact Hpass|]. split; assumption.
  Qed.
  (** C100: the whole script *)
  Theorem C100_script (ntrain ntest : nat) (orders : list (list nat * list nat)) (os : optst) :
    ad_working -> ad_optimises -> 0 < b <= ntrain -> b <= ntest ->
    Forall (fun o => Permutation (fst o) (seq 0 ntrain) /\ Permutation (snd o) (seq 0 ntest)) orders -> (forall i, i < ntrain -> lab i < O) ->
    let calls := List.length orders * (ntrain / b + ntest / b) in
    (exists m lines, ad_epochs svd pix lab N b optst opt ntrain ntest orders os m0 None = Ok (m, lines) /\ reached calls m /\
       List.length lines = List.length orders /\ Forall (fun l => (0 <= snd (fst l) <= 1)%R /\ (0 <= snd l <= 1)%R) lines) \/
    (exists e k m, ad_epochs svd pix lab N b optst opt ntrain ntest orders os m0 None = Err e /\ k < calls /\ reached k m /\ sick m).
  Proof.
    intros Hw Ho Hb Hbt Hord Hlab calls.
    assert (Hfrac : forall h k, h <= k -> 0 < k -> (0 <= INR h / INR k <= 1)%R).
    { intros h k Hhk Hk. apply le_INR in Hhk. pose proof (pos_INR h). assert (0 < INR k)%R by (apply lt_0_INR; exact Hk).
      split; [apply Rmult_le_pos; [assumption|left; apply Rinv_0_lt_compat; assumption]|].
      apply (Rmult_le_reg_r (INR k)); [assumption|]. unfold Rdiv. rewrite Rmult_assoc, Rinv_l by lra. lra. }
    assert (HG : forall os m g k, reached k m ->
      (exists m' lines, ad_epochs svd pix lab N b optst opt ntrain ntest orders os m g = Ok (m', lines) /\ reached (k + calls) m' /\
         List.length lines = List.length orders /\ Forall (fun l => (0 <= snd (fst l) <= 1)%R /\ (0 <= snd l <= 1)%R) lines) \/
      (exists e k1 m1, ad_epochs svd pix lab N b optst opt ntrain ntest orders os m g = Err e /\ k1 < k + calls /\ reached k1 m1 /\ sick m1)).
    { unfold calls. clear calls os. induction Hord as [|[tr te] orders [Ptr Pte] Hord IH]; intros os m g k Hm.
      - left. exists m, []. cbn [ad_epochs List.length Nat.mul]. rewrite Nat.add_0_r. auto.
      - cbn [fst snd] in Ptr, Pte. cbn [ad_epochs List.length]. set (c1 := ntrain / b) in *. set (c2 := ntest / b) in *.
        destruct (C100_train_epoch ntrain tr os m g k Hw Ho Hm Hb Ptr Hlab) as [(bs & rest & os1 & m1 & loss & hits & _ & _ & _ & Hm1 & Hh & E1)|(e & bs & rest & bs1 & idx & bs2 & os1 & m1 & loss & hits & E1 & _ & Hn & Eb & _ & Hm1 & Hs)].
        2: { assert (Hk : k <= k + List.length bs1 < k + ntrain / b) by (rewrite <- Hn, Eb, app_length; cbn [List.length]; lia).
             right. exists e, (k + List.length bs1), m1. rewrite E1. split; [reflexivity|]. fold c1 in Hk. split; [nia|]. split; assumption. }
        rewrite E1. cbn [rbind].
        destruct (C100_test_epoch ntest te m1 (Some b) _ Hw Hm1 ltac:(lia) Pte) as [(bs2 & rest2 & m2 & h2 & _ & _ & _ & Hm2 & Hh2 & E2)|(e & bs' & rest' & bs1 & idx & bs2 & m2 & h2 & E2 & _ & Hn & Eb & _ & Hm2 & Hs)].
        2: { assert (Hk : k + ntrain / b <= k + ntrain / b + List.length bs1 < k + ntrain / b + ntest / b) by (rewrite <- Hn, Eb, app_length; cbn [List.length]; lia).
             right. exists e, (k + ntrain / b + List.length bs1), m2. rewrite E2. split; [reflexivity|]. fold c1 c2 in Hk. split; [nia|]. split; assumption. }
        rewrite E2. cbn [rbind]. fold c1 c2 in Hm2.
        destruct (IH os1 m2 (Some b) _ Hm2) as [(m' & lines & E3 & Hm' & Hl & HF)|(e & k1 & m3 & E3 & Hk & Hm3 & Hs)].
        + left. rewrite E3. cbn [rbind fst snd]. eexists. eexists. split; [reflexivity|]. split; [replace (k + S (List.length orders) * (c1 + c2)) with (k + c1 + c2 + List.length orders * (c1 + c2)) by lia; exact Hm'|].
          split; [cbn [List.length]; rewrite Hl; reflexivity|]. constructor; [|exact HF]. cbn [fst snd].
          assert (0 < ntrain / b) by (apply Nat.div_str_pos; lia). assert (0 < ntest / b) by (apply Nat.div_str_pos; lia).
          split; apply Hfrac; try assumption; unfold c1, c2; nia.
        + right. rewrite E3. exists e, k1, m3. split; [reflexivity|]. split; [lia|]. split; assumption. }
    exact (HG os m0 None 0 (reached_0 Hw)).
  Qed.
  (** the merge state after k calls: with batches not larger than merge_threshold, the k-th call (k > 0) is followed by
      ((k-1) b) / merge_threshold flips *)
  Theorem C100_flips k m : ad_working -> reached k m -> 0 < b -> (Z.of_nat b <= thr)%Z -> 0 < k ->
    Z.of_nat (offset m) = (((Z.of_nat k - 1) * Z.of_nat b / thr) mod 2)%Z /\
    g_counter (a_reg m) = (Z.of_nat b + ((Z.of_nat k - 1) * Z.of_nat b) mod thr)%Z.
  Proof.
    intros Hw (fl & Hr & _ & Hf) Hb Ht Hk. specialize (Hf Hb Ht). destruct (Nat.eqb_spec k 0); [lia|]. pose proof Hw as (Hi & _ & HN & _ & _ & _ & HD & _).
    destruct (C52_schedule svd N O D 2 per par label path std cutoff thr rnd m0 m Hi HN HD _ _ Hr) as [Q1 Q2].
    rewrite Q2, Nat2Z.inj_mod, Hf. split; [reflexivity|]. rewrite Hf in Q1. pose proof (Z.div_mod ((Z.of_nat k - 1) * Z.of_nat b) thr ltac:(lia)). rewrite Nat2Z.inj_mul in Q1. lia.
  Qed.
End P.

(** ** The constants of train_script.py with adaptive_mode = True: 784 pixels, 10 classes, bond dimension 20, batches of 100,
    2000 training and 1000 test images; the defaults of MPS: cutoff 1e-10, merge_threshold 2000 *)
Section Constants.
  Variable svd : tensor R_ops -> tensor R_ops * tensor R_ops * tensor R_ops.
  Variables (pix : nat -> nat -> R) (lab : nat -> nat) (per par : bool) (std cutoff : R) (rnd : nat -> list nat -> R).
  Hypotheses (Hlab : forall i, lab i < 10) (Hcut : (0 < cutoff)%R).
  Notation working := (ad_working 784 10 20 per par None PNone std cutoff 2000 rnd).
  Notation reached := (reached svd 100 2000).
  Notation sick := (sick svd 10 20 cutoff).
  Lemma script_model : exists m0, ad_init 784 10 20 2 per par None PNone std cutoff 2000 rnd = Ok m0 /\ working m0.
  Proof.
    destruct (C49_two_inputs_partial 784 10 20 2 per par None PNone std cutoff 2000 rnd 392 ltac:(lia) eq_refl eq_refl) as (m0 & E).
    exists m0. split; [exact E|]. assert (L : label_number 784 None = 392) by reflexivity. unfold ad_working. rewrite L.
    split; [exact E|]. split; [left; reflexivity|]. repeat split; try lia. exact Hcut.
  Qed.
  Lemma thr_m m0 m : working m0 -> after svd m0 m -> g_threshold (a_reg m) = 2000%Z.
  Proof.
    intros (Hi & _ & HN & _ & _ & _ & HD & _) Ha. pose proof (two 784 10 20 2 per par None PNone std cutoff 2000 rnd m0 Hi HN HD) as H2.
    destruct (after_keeps svd 784 10 20 2 (label_number 784 None) m0 m HD H2 (inv0 784 10 20 2 per par None PNone std cutoff 2000 rnd m0 Hi HN HD) Ha) as (_ & E & _).
    destruct (start 784 10 20 2 per par None PNone std cutoff 2000 rnd m0 Hi HN HD) as (_ & _ & E' & _). congruence.
  Qed.
  (** a flip is due before every 20th batch, first before the 21st *)
  Lemma due_20 m0 k m : working m0 -> reached m0 k m -> flip_due m -> 0 < k /\ k mod 20 = 0.
  Proof.
    intros Hw Hm Hf. pose proof Hm as (fl & Hr & _). pose proof Hw as (Hi & _ & HN & _ & _ & _ & HD & _).
    pose proof (run_after svd m0 m _ _ Hr) as Ha.
    assert (Ht : g_threshold (a_reg m) = 2000%Z) by exact (thr_m m0 m Hw Ha).
    unfold flip_due in Hf. rewrite Ht in Hf. destruct (Nat.eq_dec k 0) as [->|Hk].
    - exfalso. destruct (C52_schedule svd 784 10 20 2 per par None PNone std cutoff 2000 rnd m0 m Hi HN HD _ _ Hr) as [Q1 _]. cbn [Nat.mul] in Q1. lia.
    - split; [lia|]. destruct (C100_flips svd 784 10 20 100 per par None PNone std cutoff 2000 rnd m0 k m Hw Hm ltac:(lia) ltac:(lia) ltac:(lia)) as [_ Q].
      rewrite Q in Hf. clear -Hf Hk. change (Z.of_nat 100) with 100%Z in Hf. replace 2000%Z with (20 * 100)%Z in Hf by reflexivity. rewrite Z.mul_mod_distr_r in Hf by lia.
      pose proof (Z.mod_pos_bound (Z.of_nat k - 1) 20 ltac:(lia)). assert (E : ((Z.of_nat k - 1) mod 20 = 19)%Z) by lia.
      pose proof (Z.div_mod (Z.of_nat k - 1) 20 ltac:(lia)) as Dm. rewrite E in Dm.
      apply Nat2Z.inj. rewrite Nat2Z.inj_mod. change (Z.of_nat 20) with 20%Z. change (Z.of_nat 0) with 0%Z. replace (Z.of_nat k) with ((((Z.of_nat k - 1) / 20) + 1) * 20)%Z by lia. apply Z.mod_mul. lia.
  Qed.
  Lemma offset_1 m0 m k q : working m0 -> reached m0 k m -> 0 < k -> ((Z.of_nat k - 1) * 100 / 2000 = Z.of_nat q)%Z -> offset m = q mod 2.
  Proof.
    intros Hw Hm Hk E. destruct (C100_flips svd 784 10 20 100 per par None PNone std cutoff 2000 rnd m0 k m Hw Hm ltac:(lia) ltac:(lia) Hk) as [Q _].
    apply Nat2Z.inj. rewrite Q, Nat2Z.inj_mod, <- E. reflexivity.
  Qed.
  Variable optst : Type.
  Variable opt : optst -> ad_mps -> tensor R_cring -> list nat -> optst * ad_mps.

  (** C100: the script with its constants and any number of epochs: it runs to its end, or it stops at a batch whose number is a
      multiple of 20 (the flips), because torch.svd and the cutoff make a core vanish.  After 20 epochs 29 flips have happened
      and the odd module list is in use. *)
  Theorem C100_constants (os : optst) (orders : list (list nat * list nat)) :
    Forall (fun o => Permutation (fst o) (seq 0 2000) /\ Permutation (snd o) (seq 0 1000)) orders ->
    exists m0, ad_init 784 10 20 2 per par None PNone std cutoff 2000 rnd = Ok m0 /\
    (ad_optimises svd 100 2000 m0 optst opt ->
     (exists m lines, ad_epochs svd pix lab 784 100 optst opt 2000 1000 orders os m0 None = Ok (m, lines) /\ List.length lines = List.length orders /\
        Forall (fun l => (0 <= snd (fst l) <= 1)%R /\ (0 <= snd l <= 1)%R) lines /\ (List.length orders = 20 -> offset m = 1)) \/
     (exists e k m, ad_epochs svd pix lab 784 100 optst opt 2000 1000 orders os m0 None = Err e /\ 0 < k < List.length orders * 30 /\ k mod 20 = 0 /\
        reached m0 k m /\ sick m)).
  Proof.
    intros Hord. destruct script_model as (m0 & Hi & Hw). exists m0. split; [exact Hi|]. intros Ho.
    destruct (C100_script svd pix lab 784 10 20 100 per par None PNone std cutoff 2000 rnd m0 optst opt 2000 1000 orders os Hw Ho ltac:(lia) ltac:(lia) Hord ltac:(intros; apply Hlab)) as [(m & lines & E & Hm & Hl & HF)|(e & k & m & E & Hk & Hm & Hs)].
    - left. exists m, lines. split; [exact E|]. split; [exact Hl|]. split; [exact HF|]. intros E20. rewrite E20 in Hm.
      change (20 * (2000 / 100 + 1000 / 100)) with 600 in Hm. apply (offset_1 m0 m 600 29 Hw Hm ltac:(lia) eq_refl).
    - right. exists e, k, m. split; [exact E|]. change (2000 / 100 + 1000 / 100) with 30 in Hk. destruct (due_20 m0 k m Hw Hm (proj1 Hs)) as [K0 K1].
      split; [lia|]. split; [exact K1|]. split; assumption.
  Qed.
  (** C101: with the script's constants the first training epoch never fails and never flips; the first batch of the first test epoch
      flips: if the test epoch returns, the model is using its other module list.  So the test loop changes the model. *)
  Theorem C101_first_test_refuted (os : optst) (order order' : list nat) :
    Permutation order (seq 0 2000) -> Permutation order' (seq 0 1000) ->
    exists m0, ad_init 784 10 20 2 per par None PNone std cutoff 2000 rnd = Ok m0 /\
    (ad_optimises svd 100 2000 m0 optst opt ->
     exists os' m g l a, ad_train_epoch svd pix lab 784 100 optst opt 2000 order os m0 None = Ok (os', m, g, l, a) /\ offset m = 0 /\ flip_due m /\
     ((exists m' t, ad_test_epoch svd pix lab 784 100 1000 order' m g = Ok (m', g, t) /\ offset m' = 1) \/
      (exists e, ad_test_epoch svd pix lab 784 100 1000 order' m g = Err e /\ sick m))).
  Proof.
    intros Hp Hp'. destruct script_model as (m0 & Hi & Hw). exists m0. split; [exact Hi|]. intros Ho.
    destruct (C100_train_epoch svd pix lab 784 10 20 100 per par None PNone std cutoff 2000 rnd m0 optst opt 2000 order os m0 None 0 Hw Ho (reached_0 _ _ _ _ _ _ _ _ _ _ _ _ _ _ Hw) ltac:(lia) Hp ltac:(intros; apply Hlab)) as [(bs & rest & os' & m & loss & hits & _ & _ & _ & Hm & _ & E)|(e & bs & rest & bs1 & idx & bs2 & os1 & m & loss & hits & E & _ & Hn & Eb & _ & Hm & Hs)].
    2: { exfalso. set (k := 0 + List.length bs1) in *. assert (Hk : k < 20) by (change 20 with (2000 / 100); rewrite <- Hn, Eb, app_length; unfold k; cbn [List.length]; lia). destruct (due_20 m0 k m Hw Hm (proj1 Hs)) as [K0 K1]. rewrite Nat.mod_small in K1 by lia. lia. }
    change (0 + 2000 / 100) with 20 in Hm. exists os', m, (Some 100). eexists. eexists. split; [exact E|]. split; [apply (offset_1 m0 m 20 0 Hw Hm ltac:(lia) eq_refl)|].
    assert (Fd : flip_due m).
    { destruct (C100_flips svd 784 10 20 100 per par None PNone std cutoff 2000 rnd m0 20 m Hw Hm ltac:(lia) ltac:(lia) ltac:(lia)) as [_ Q].
      pose proof Hm as (fl & Hr & _). pose proof Hw as (_ & _ & HN & _ & _ & _ & HD & _). pose proof (run_after svd m0 m _ _ Hr) as Ha.
      unfold flip_due. assert (Ht : g_threshold (a_reg m) = 2000%Z) by exact (thr_m m0 m Hw Ha).
      rewrite Ht, Q. cbn. lia. }
    split; [exact Fd|].
    destruct (C100_test_epoch svd pix lab 784 10 20 100 per par None PNone std cutoff 2000 rnd m0 1000 order' m (Some 100) 20 Hw Hm ltac:(lia) Hp') as [(bs2 & rest2 & m' & h & _ & _ & _ & Hm' & _ & E')|(e & bs' & rest' & bs1 & idx & bs2 & m1 & h & E' & _ & Hn & Eb & Hpass & Hm1 & Hs)].
    - left. exists m'. eexists. split; [exact E'|]. apply (offset_1 m0 m' 30 1 Hw Hm' ltac:(lia) eq_refl).
    - right. exists e. split; [exact E'|]. set (k := 20 + List.length bs1) in *.
      assert (Hk : List.length bs1 < 10) by (change 10 with (1000 / 100); rewrite <- Hn, Eb, app_length; cbn [List.length]; lia).
      destruct (due_20 m0 k m1 Hw Hm1 (proj1 Hs)) as [K0 K1]. destruct bs1 as [|z bs1]; [inversion Hpass; subst; exact Hs|].
      exfalso. cbn [List.length] in *. replace k with (S (List.length bs1) + 1 * 20) in K1 by (unfold k; lia). rewrite Nat.mod_add, Nat.mod_small in K1 by lia. lia.
  Qed.
End Constants.

(** ** The hypotheses are met, and the refuted case happens: with the script's constants, an optimiser that sets every core to zero
    except for its first entry, which it sets to one, and a function that decomposes such cores correctly, the first epoch returns, and
    its test loop has flipped the merge state. *)
From Verif Require Import P_AdEx P_AdUnit.
Section Met.
  Variables (svd : tensor R_ops -> tensor R_ops * tensor R_ops * tensor R_ops) (pix : nat -> nat -> R) (lab : nat -> nat) (N O D b : nat) (per : bool) (optst : Type) (opt : optst -> ad_mps -> tensor R_cring -> list nat -> optst * ad_mps).
  Lemma pass_last os m bs os' m' loss hits : ad_pass svd pix lab N O D b per optst opt os m bs os' m' loss hits -> bs <> [] ->
    exists os1 m1 x l, m' = snd (opt os1 m1 x l).
  Proof.
    induction 1 as [|os m idx bs inputs m1 os' m' os2 m2 c loss hits Hc _ E Hp IH]; [congruence|]. intros _.
    destruct bs as [|z bs]; [|apply IH; discriminate]. inversion Hp; subst. exists os, m1, inputs, (map lab idx). rewrite E. reflexivity.
  Qed.
End Met.
Lemma unit_idem m : unit_mod (unit_mod m) = unit_mod m.
Proof. destruct m; reflexivity. Qed.
Example C101_test_flips_met : exists (pix : nat -> nat -> R) m0 os m g l a m' t,
  ad_init 784 10 20 2 false true None PNone (/1000) (/10) 2000 (fun _ _ => 1%R) = Ok m0 /\
  ad_optimises unit_svd 100 2000 m0 unit (fun os m _ _ => (os, unit_model m)) /\
  ad_train_epoch unit_svd pix (fun i => i mod 10) 784 100 unit (fun os m _ _ => (os, unit_model m)) 2000 (rev (seq 0 2000)) tt m0 None = Ok (os, m, g, l, a) /\
  ad_test_epoch unit_svd pix (fun i => i mod 10) 784 100 1000 (rev (seq 0 1000)) m g = Ok (m', g, t) /\ offset m = 0 /\ offset m' = 1 /\ same_scores 10 20 false m m'.
Proof.
  set (pix := fun i s => INR (i + s)). set (lab := fun i => i mod 10). set (opt := fun (os : unit) m (_ : tensor R_cring) (_ : list nat) => (os, unit_model m)).
  assert (Hlab : forall i, lab i < 10) by (intros i; apply Nat.mod_upper_bound; lia).
  assert (Hcut : (0 < / 10)%R) by lra.
  destruct (script_model false true (/1000)%R (/10)%R (fun _ _ => 1%R) Hcut) as (m0 & Hi & Hw). exists pix, m0.
  pose proof Hw as (_ & _ & HN & _ & _ & _ & HD & _).
  assert (Iv : forall k m, reached unit_svd 100 2000 m0 k m -> inv 784 10 20 2 392 m).
  { intros k m (fl & Hr & _). exact (invm unit_svd 784 10 20 2 false true None PNone _ _ _ _ m0 m Hi HN HD (run_after _ _ _ _ _ Hr)). }
  assert (Ho : ad_optimises unit_svd 100 2000 m0 unit opt).
  { intros os k m x l Hm. pose proof (Iv k m Hm) as I. cbn [opt snd]. exists (map unit_mod (g_list0 (a_reg m))), (map unit_mod (g_list1 (a_reg m))).
    assert (NR : forall o, o < 2 -> Forall2 retrained (g_list (a_reg m) o) (map unit_mod (g_list (a_reg m) o))).
    { intros o Ho. apply unit_retrained. eapply Forall_impl; [|apply (merged_no_region 20 2 10 o 392 (784 - 392) _ Ho); [lia|apply (gr_list _ _ _ _ _ _ _ (i_reg _ _ _ _ _ _ I) Ho)]]. intros z Hz. destruct z; exact Hz. }
    split; [apply (NR 0); lia|]. split; [apply (NR 1); lia|]. reflexivity. }
  assert (Hp : Permutation (rev (seq 0 2000)) (seq 0 2000)) by apply Permutation_sym, Permutation_rev.
  assert (Hp' : Permutation (rev (seq 0 1000)) (seq 0 1000)) by apply Permutation_sym, Permutation_rev.
  destruct (C100_train_epoch unit_svd pix lab 784 10 20 100 false true None PNone _ _ _ _ m0 unit opt 2000 (rev (seq 0 2000)) tt m0 None 0 Hw Ho (reached_0 _ _ _ _ _ _ _ _ _ _ _ _ _ _ Hw) ltac:(lia) Hp ltac:(intros; apply Hlab)) as [(bs & rest & os' & m & loss & hits & _ & Hn & Hpass & Hm & _ & E)|(e & bs & rest & bs1 & idx & bs2 & os1 & m & loss & hits & E & _ & Hn & Eb & _ & Hm & Hs)].
  2: { exfalso. set (k := 0 + List.length bs1) in *. assert (Hk : k < 20) by (change 20 with (2000 / 100); rewrite <- Hn, Eb, app_length; unfold k; cbn [List.length]; lia). destruct (due_20 unit_svd _ _ _ _ _ m0 k m Hw Hm (proj1 Hs)) as [K0 K1]. rewrite Nat.mod_small in K1 by lia. lia. }
  change (0 + 2000 / 100) with 20 in Hm.
  destruct (pass_last _ _ _ _ _ _ _ _ _ _ _ _ _ _ _ _ _ Hpass) as (os1 & m1 & x & l & Em); [intros ->; discriminate Hn|]. cbn [opt snd] in Em.
  assert (Ea : g_active (a_reg m) = map unit_mod (g_active (a_reg m))).
  { assert (Eu : g_active (a_reg m) = map unit_mod (g_active (a_reg m1))) by (rewrite Em; unfold g_active, g_list; cbn; destruct (_ =? 0); reflexivity).
    rewrite Eu, map_map. apply map_ext. intros z. symmetry. apply unit_idem. }
  pose proof (gr_active _ _ _ _ _ _ (i_reg _ _ _ _ _ _ (Iv _ _ Hm))) as [W _].
  assert (Hh : healthy unit_svd 20 2 10 (/10) (g_active (a_reg m))) by (rewrite Ea; apply unit_healthy; try lia; try lra; exact W).
  assert (Hl : lossless unit_svd 20 2 10 (/10) (g_active (a_reg m))) by (rewrite Ea; apply unit_lossless; try lia; try lra; exact W).
  exists os', m, (Some 100). eexists. eexists.
  destruct (C101_lossless_test_partial unit_svd pix lab 784 10 20 100 false true None PNone _ _ _ _ m0 1000 (rev (seq 0 1000)) m (Some 100) 20 Hw Hm ltac:(lia) Hp') as [(m' & h & _ & E' & Hsame & Hm')|(bs' & rest' & bs1 & idx & bs2 & m2 & h & _ & Hn' & Eb & Hpass' & Hm2 & Hs)].
  - exists m'. eexists. split; [exact Hi|]. split; [exact Ho|]. split; [exact E|]. split; [exact E'|].
    split; [apply (offset_1 unit_svd _ _ _ _ _ m0 m 20 0 Hw Hm ltac:(lia) eq_refl)|]. split; [apply (offset_1 unit_svd _ _ _ _ _ m0 m' 30 1 Hw Hm' ltac:(lia) eq_refl)|exact Hsame].
  - exfalso. set (k := 20 + List.length bs1) in *.
    assert (Hk : List.length bs1 < 10) by (change 10 with (1000 / 100); rewrite <- Hn', Eb, app_length; cbn [List.length]; lia).
    destruct (due_20 unit_svd _ _ _ _ _ m0 k m2 Hw Hm2 (proj1 Hs)) as [K0 K1]. destruct bs1 as [|z bs1].
    + inversion Hpass'; subst. apply (proj2 Hs). split; [exact Hh|exact Hl].
    + cbn [List.length] in *. replace k with (S (List.length bs1) + 1 * 20) in K1 by (unfold k; lia). rewrite Nat.mod_add, Nat.mod_small in K1 by lia. lia.
Qed.
Print Assumptions C100_train_epoch. Print Assumptions C100_test_epoch. Print Assumptions C100_script. Print Assumptions C100_flips. Print Assumptions C100_constants.
Print Assumptions C101_lossless_test_partial. Print Assumptions C101_first_test_refuted. Print Assumptions C101_test_flips_met.
