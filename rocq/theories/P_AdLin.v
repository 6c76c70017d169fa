(** * P_AdLin: adaptive models, in every history: rows are independent, the output is multilinear in the feature
    vectors, parallel_eval has no influence (C109) *)
From Coq Require Import Reals Lra.
From Verif Require Import Base Scalars Tensor Spec LinAlg Contractables ContrProofs Utils UtilsSpec SvdProofs P_Svd TorchMps TmSpec TmProofs TmFinal P_Mps4
  Adaptive AdMerge AdKinds AdSpec AdUnmerge AdFlip AdState AdCall AdHealthy P_Ad AdExact Crash AdCrash P_AdExact P_AdEx.

Section Lin.
  Notation K := R_cring.
  Variables D F O : nat.
  Variables a b : R.
  Notation fac_ := (list (nat * mat R_cring)).
  Notation sq := (sq K D).
  Notation eqc := (eqc K D).
  Definition mixed (c0 c1 c2 : fac_) : Prop := sq c0 /\ sq c1 /\ sq c2 /\ forall i j, i < D -> j < D -> chain c2 i j = (a * chain c0 i j + b * chain c1 i j)%R.
  Lemma bsum_mix n (f g h : nat -> R) : (forall k, k < n -> h k = (a * f k + b * g k)%R) ->
    bsum (S := R_cring) n h = (a * bsum (S := R_cring) n f + b * bsum (S := R_cring) n g)%R.
  Proof.
    intros H. rewrite (bsum_ext (S := R_cring) n h (fun k => (a * f k + b * g k)%R) H). 
    refine (eq_trans (bsum_add R_cring n (fun k => (a * f k)%R) (fun k => (b * g k)%R)) _).
    refine (f_equal2 Rplus _ _); [exact (bsum_mul_l R_cring n a f)|exact (bsum_mul_l R_cring n b g)].
  Qed.
  Lemma mixed_left x0 x1 x2 y0 y1 y2 : mixed x0 x1 x2 -> eqc y0 y1 -> eqc y0 y2 -> mixed (x0 ++ y0) (x1 ++ y1) (x2 ++ y2).
  Proof.
    intros (A0 & A1 & A2 & H) (B0 & B1 & E1) (_ & B2 & E2). split; [apply Forall_app; auto|]. split; [apply Forall_app; auto|]. split; [apply Forall_app; auto|].
    intros i j Hi Hj. rewrite !(chain_sq K D) by assumption. unfold mmul. apply bsum_mix. intros k Hk.
    change (chain x2 i k * chain y2 k j = a * (chain x0 i k * chain y0 k j) + b * (chain x1 i k * chain y1 k j))%R.
    rewrite H, <- E1, <- E2 by assumption. generalize (chain x0 i k : R) (chain x1 i k : R) (chain y0 k j : R). intros. 
    match goal with |- ?x = ?y => change (@eq R x y) end. ring.
  Qed.
  Lemma mixed_right x0 x1 x2 y0 y1 y2 : eqc x0 x1 -> eqc x0 x2 -> mixed y0 y1 y2 -> mixed (x0 ++ y0) (x1 ++ y1) (x2 ++ y2).
  Proof.
    intros (B0 & B1 & E1) (_ & B2 & E2) (A0 & A1 & A2 & H). split; [apply Forall_app; auto|]. split; [apply Forall_app; auto|]. split; [apply Forall_app; auto|].
    intros i j Hi Hj. rewrite !(chain_sq K D) by assumption. unfold mmul. apply bsum_mix. intros k Hk.
    change (chain x2 i k * chain y2 k j = a * (chain x0 i k * chain y0 k j) + b * (chain x1 i k * chain y1 k j))%R.
    rewrite H, <- E1, <- E2 by assumption. generalize (chain y0 k j : R) (chain y1 k j : R) (chain x0 i k : R). intros. 
    match goal with |- ?x = ?y => change (@eq R x y) end. ring.
  Qed.
  Lemma mixed_one M0 M1 M2 : (forall i j, i < D -> j < D -> M2 i j = (a * M0 i j + b * M1 i j)%R) -> mixed [(D, M0)] [(D, M1)] [(D, M2)].
  Proof. intros H. do 3 (split; [repeat constructor|]). intros i j Hi Hj. rewrite !(chain_single K) by exact Hj. apply H; assumption. Qed.
  Lemma eqc_cons M M' r r' : (forall i j, i < D -> j < D -> M i j = M' i j) -> eqc r r' -> eqc ((D, M) :: r) ((D, M') :: r').
  Proof. intros H E. change ((D, M) :: r) with ([(D, M)] ++ r). change ((D, M') :: r') with ([(D, M')] ++ r'). apply eqc_app; [apply eqc_one; exact H|exact E]. Qed.
  Lemma mixed_cons M0 M1 M2 r0 r1 r2 : (forall i j, i < D -> j < D -> M2 i j = (a * M0 i j + b * M1 i j)%R) -> eqc r0 r1 -> eqc r0 r2 -> mixed ((D, M0) :: r0) ((D, M1) :: r1) ((D, M2) :: r2).
  Proof. intros H E1 E2. exact (mixed_left [(D, M0)] [(D, M1)] [(D, M2)] _ _ _ (mixed_one _ _ _ H) E1 E2). Qed.
  Lemma cons_mixed M0 M1 M2 r0 r1 r2 : (forall i j, i < D -> j < D -> M0 i j = M1 i j) -> (forall i j, i < D -> j < D -> M0 i j = M2 i j) -> mixed r0 r1 r2 -> mixed ((D, M0) :: r0) ((D, M1) :: r1) ((D, M2) :: r2).
  Proof. intros H1 H2 H. exact (mixed_right [(D, M0)] [(D, M1)] [(D, M2)] _ _ _ (eqc_one K D _ _ H1) (eqc_one K D _ _ H2) H). Qed.

  (** *** the matrices of the cores depend on the vectors of their sites only *)
  Notation mods := (list (module R_cring)).
  Lemma matrices_ext (l : mods) : forall site (v w : nat -> nat -> R) o, (forall s i, site <= s < site + region_len K l -> i < F -> v s i = w s i) ->
    Forall (no_region K) l -> eqc (core_matrices D F l site v o) (core_matrices D F l site w o).
  Proof.
    induction l as [|m l IH]; intros site v w o H NR; [apply eqc_refl; constructor|]. inversion NR as [|? ? Nm Nl]; subst. change (region_len K (m :: l)) with (mod_len m + region_len K l) in H.
    assert (IH' : eqc (core_matrices D F l (site + mod_len m) v o) (core_matrices D F l (site + mod_len m) w o)) by (apply IH; [intros s i Hs Hi; apply H; [lia|exact Hi]|exact Nl]).
    destruct m as [t ub c|t|t|t|t lo]; [destruct Nm|..]; cbn [core_matrices mod_len] in *.
    - rewrite Nat.add_0_r in IH'. apply eqc_cons; [reflexivity|exact IH'].
    - apply eqc_cons; [|exact IH']. intros i j _ _. apply (bsum_ext (S := R_cring)). intros k Hk. rewrite H by (try exact Hk; lia). reflexivity.
    - apply eqc_app; [|exact IH'].
      assert (Hq : forall s, In s (seq 0 (size 0 t)) -> s < size 0 t) by (intros s Hs; apply in_seq in Hs; lia). revert Hq. generalize (seq 0 (size 0 t)). intros q Hq.
      induction q as [|s q IHq]; [apply eqc_refl; constructor|]. cbn [map]. pose proof (Hq s (or_introl eq_refl)) as Hs. apply eqc_cons; [|apply IHq; intros s' Hs'; apply Hq; right; exact Hs'].
      intros i j _ _. apply (bsum_ext (S := R_cring)). intros k Hk. apply (bsum_ext (S := R_cring)). intros k' Hk'. rewrite !H by (try assumption; lia). reflexivity.
    - apply eqc_cons; [|exact IH']. intros i j _ _. apply (bsum_ext (S := R_cring)). intros k Hk. rewrite H by (try exact Hk; lia). reflexivity.
  Qed.
  Lemma seq_split n s : s < n -> seq 0 n = seq 0 s ++ s :: seq (S s) (n - S s).
  Proof. intros H. replace n with (s + S (n - S s)) at 1 by lia. rewrite seq_app. reflexivity. Qed.
  Lemma pairs_ext (f g : nat -> mat R_cring) q : (forall s i j, In s q -> i < D -> j < D -> f s i j = g s i j) -> eqc (map (fun s => (D, f s)) q) (map (fun s => (D, g s)) q).
  Proof. induction q as [|s q IH]; intros H; [apply eqc_refl; constructor|]. cbn [map]. apply eqc_cons; [intros i j Hi Hj; apply H; [left; reflexivity|assumption..]|apply IH; intros s' i j Hs'; apply H; right; exact Hs']. Qed.
  Lemma matrices_mixed (l : mods) : forall site (v0 v1 v2 : nat -> nat -> R) o n s,
    (forall s' i, s' < n -> i < F -> s' <> s -> v1 s' i = v0 s' i /\ v2 s' i = v0 s' i) -> (forall i, i < F -> v2 s i = (a * v0 s i + b * v1 s i)%R) ->
    site + region_len K l <= n -> site <= s < site + region_len K l -> Forall (no_region K) l ->
    mixed (core_matrices D F l site v0 o) (core_matrices D F l site v1 o) (core_matrices D F l site v2 o).
  Proof.
    induction l as [|m l IH]; intros site v0 v1 v2 o n s Hsame Hmix Hn Hs NR; [cbn in Hs; lia|]. inversion NR as [|? ? Nm Nl]; subst.
    change (region_len K (m :: l)) with (mod_len m + region_len K l) in Hn, Hs.
    assert (Ext : s < site + mod_len m -> eqc (core_matrices D F l (site + mod_len m) v0 o) (core_matrices D F l (site + mod_len m) v1 o) /\ eqc (core_matrices D F l (site + mod_len m) v0 o) (core_matrices D F l (site + mod_len m) v2 o)).
    { intros Hlt. split; (apply matrices_ext; [|exact Nl]); intros s' i Hs' Hi; destruct (Hsame s' i ltac:(lia) Hi ltac:(lia)) as [E1 E2]; congruence. }
    assert (IH' : site + mod_len m <= s -> mixed (core_matrices D F l (site + mod_len m) v0 o) (core_matrices D F l (site + mod_len m) v1 o) (core_matrices D F l (site + mod_len m) v2 o)).
    { intros Hge. apply (IH _ _ _ _ o n s); try assumption; lia. }
    destruct m as [t ub c|t|t|t|t lo]; [destruct Nm|..]; cbn [core_matrices mod_len] in *.
    - rewrite Nat.add_0_r in IH'. apply cons_mixed; [reflexivity|reflexivity|apply IH'; lia].
    - destruct (Nat.eq_dec s site) as [->|Hne].
      + destruct (Ext ltac:(lia)) as [E1 E2]. apply mixed_cons; [|exact E1|exact E2]. intros i j _ _. apply bsum_mix. intros k Hk. rewrite Hmix by exact Hk. ring.
      + apply cons_mixed; [| |apply IH'; lia]; intros i j _ _; apply (bsum_ext (S := R_cring)); intros k Hk; destruct (Hsame site k ltac:(lia) Hk ltac:(lia)) as [E1 E2]; congruence.
    - destruct (Nat.lt_ge_cases s (site + 2 * size 0 t)) as [Hlt|Hge].
      + destruct (Ext Hlt) as [E1 E2]. apply mixed_left; [|exact E1|exact E2].
        assert (Ex : exists h, h < size 0 t /\ (s = site + 2 * h \/ s = site + 2 * h + 1)).
        { exists ((s - site) / 2). pose proof (Nat.div_mod (s - site) 2 ltac:(lia)) as Hdm. pose proof (Nat.mod_upper_bound (s - site) 2 ltac:(lia)) as Hmu.
          revert Hdm Hmu. generalize ((s - site) / 2) ((s - site) mod 2). intros; lia. }
        destruct Ex as (h & Hh & Hd).
        rewrite (seq_split _ h Hh), !map_app. cbn [map].
        assert (Out : forall q, (forall s', In s' q -> s' < size 0 t /\ s' <> h) -> forall v, (v = v1 \/ v = v2) -> 
           eqc (map (fun s => (D, (fun a0 b0 => bsum (S := R_cring) F (fun i => bsum (S := R_cring) F (fun j => get t [s; a0; b0; i; j] * (v0 (site + 2 * s)%nat i * v0 (site + 2 * s + 1)%nat j))%R)) : mat R_cring)) q)
               (map (fun s => (D, (fun a0 b0 => bsum (S := R_cring) F (fun i => bsum (S := R_cring) F (fun j => get t [s; a0; b0; i; j] * (v (site + 2 * s)%nat i * v (site + 2 * s + 1)%nat j))%R)) : mat R_cring)) q)).
        { intros q Hq v Hv. apply pairs_ext. intros s' i j Hin _ _. destruct (Hq s' Hin) as [Q1 Q2]. apply (bsum_ext (S := R_cring)). intros k Hk. apply (bsum_ext (S := R_cring)). intros k' Hk'.
          destruct (Hsame (site + 2 * s') k ltac:(lia) Hk ltac:(lia)) as [X1 X2]. destruct (Hsame (site + 2 * s' + 1) k' ltac:(lia) Hk' ltac:(lia)) as [Y1 Y2].
          destruct Hv as [->| ->]; congruence. }
        apply mixed_right; [apply Out; [intros s' Hs'; apply in_seq in Hs'; lia|auto]..|].
        apply mixed_cons; [|apply Out; [intros s' Hs'; apply in_seq in Hs'; lia|auto]..].
        intros i j _ _. apply bsum_mix. intros k Hk. apply bsum_mix. intros k' Hk'. destruct Hd as [->| ->].
        * destruct (Hsame (site + 2 * h + 1) k' ltac:(lia) Hk' ltac:(lia)) as [Y1 Y2]. rewrite Y1, Y2, Hmix by exact Hk. ring.
        * destruct (Hsame (site + 2 * h) k ltac:(lia) Hk ltac:(lia)) as [Y1 Y2]. rewrite Y1, Y2, Hmix by exact Hk'. ring.
      + apply mixed_right; [| |apply IH'; exact Hge]; (apply pairs_ext; intros s' i j Hin _ _; apply in_seq in Hin; apply (bsum_ext (S := R_cring)); intros k Hk; apply (bsum_ext (S := R_cring)); intros k' Hk';
          destruct (Hsame (site + 2 * s') k ltac:(lia) Hk ltac:(lia)) as [X1 X2]; destruct (Hsame (site + 2 * s' + 1) k' ltac:(lia) Hk' ltac:(lia)) as [Y1 Y2]; congruence).
    - destruct (Nat.eq_dec s site) as [->|Hne].
      + destruct (Ext ltac:(lia)) as [E1 E2]. apply mixed_cons; [|exact E1|exact E2]. intros i j _ _. apply bsum_mix. intros k Hk. rewrite Hmix by exact Hk. ring.
      + apply cons_mixed; [| |apply IH'; lia]; intros i j _ _; apply (bsum_ext (S := R_cring)); intros k Hk; destruct (Hsame site k ltac:(lia) Hk ltac:(lia)) as [E1 E2]; congruence.
  Qed.
  Lemma output_mixed per l v0 v1 v2 o s : 0 < D -> 
    (forall s' i, s' < region_len K l -> i < F -> s' <> s -> v1 s' i = v0 s' i /\ v2 s' i = v0 s' i) -> (forall i, i < F -> v2 s i = (a * v0 s i + b * v1 s i)%R) ->
    s < region_len K l -> Forall (no_region K) l ->
    core_output per D F l v2 o = (a * core_output per D F l v0 o + b * core_output per D F l v1 o)%R.
  Proof.
    intros HD H1 H2 Hs NR. destruct (matrices_mixed l 0 v0 v1 v2 o _ s H1 H2 ltac:(lia) ltac:(lia) NR) as (_ & _ & _ & E).
    unfold core_output. destruct per; [|apply E; exact HD]. unfold mtrace. apply bsum_mix. intros k Hk. apply E; exact Hk.
  Qed.
  Lemma output_ext per l v w o : 0 < D -> (forall s i, s < region_len K l -> i < F -> v s i = w s i) -> Forall (no_region K) l ->
    core_output per D F l v o = core_output per D F l w o.
  Proof.
    intros HD H NR. destruct (matrices_ext l 0 v w o (fun s i Hs Hi => H s i ltac:(lia) Hi) NR) as (_ & _ & E).
    unfold core_output. destruct per; [|apply E; exact HD]. unfold mtrace. apply (bsum_ext (S := R_cring)). intros k Hk. apply E; exact Hk.
  Qed.
End Lin.

(** ** C109 *)
(** the model with another value of parallel_eval *)
Definition switched (par : bool) (m : ad_mps) : ad_mps := mkAd (P_Mps.with_parallel R_cring par (a_cfg m)) (a_reg m) (a_bonds m) (a_svs m).

Section Calls.
  Notation K := R_cring.
  Notation T := (tensor R_ops).
  Variable svd : T -> T * T * T.
  Variables N O D F p : nat.
  Hypotheses (HD : 0 < D) (HN : 1 < N).
  Lemma active_merged m : inv N O D F p m -> Forall (no_region K) (g_active (a_reg m)) /\ region_len K (g_active (a_reg m)) = N.
  Proof.
    intros Hi. destruct (inv_sites N O D F p HN m Hi) as [Hpq Ep]. pose proof (gr_active _ _ _ _ _ _ (i_reg _ _ _ _ _ _ Hi)) as Ga. pose proof (gr_off _ _ _ _ _ _ (i_reg _ _ _ _ _ _ Hi)) as Ho. split.
    - eapply Forall_impl; [|apply (merged_no_region D F O _ p (N - p) _ Ho Hpq Ga)]. intros z Hz. destruct z; exact Hz.
    - rewrite (merged_len D F O _ p (N - p) _ Ho Hpq Ga). lia.
  Qed.
  (** the cores that contract a batch do not depend on the batch *)
  Lemma step_active g B1 B2 g1 i1 g2 i2 : region_step svd g B1 = Ok (g1, i1) -> region_step svd g B2 = Ok (g2, i2) -> g_active g1 = g_active g2 /\ g_offset g1 = g_offset g2.
  Proof.
    unfold region_step. destruct (g_threshold g <=? g_counter g)%Z; [|intros E1 E2; injection E1 as <- _; injection E2 as <- _; split; reflexivity].
    destruct (unmerge_mods _ _ _) as [[[ms bonds] svs]|]; cbn [rbind]; [|discriminate]. cbv zeta. generalize ((g_offset g + 1) mod 2). intros o'. destruct (merge_mods _ _ _) as [new|]; cbn [rbind]; [|discriminate].
    destruct (store _ _ _) as [new'|]; cbn [rbind]; [|discriminate]. intros E1 E2. injection E1 as <- _. injection E2 as <- _. destruct o' as [|o']; split; reflexivity.
  Qed.
  Lemma call_active m x1 g1 y1 h1 m1 x2 g2 y2 h2 m2 : ad_forward svd m x1 g1 = ((Ok y1, h1), Some m1) -> ad_forward svd m x2 g2 = ((Ok y2, h2), Some m2) -> g_active (a_reg m1) = g_active (a_reg m2) /\ a_cfg m1 = a_cfg m2.
  Proof.
    assert (Q : forall x g y h m1, ad_forward svd m x g = ((Ok y, h), Some m1) -> a_cfg m1 = a_cfg m /\ exists B info, region_step svd (a_reg m) B = Ok (a_reg m1, info)).
    { intros x g y h m1' E. unfold ad_forward in E. destruct (rbind _ _) as [e|]; [|discriminate E]. destruct (region_step svd (a_reg m) (size 0 e)) as [[reg info]|] eqn:Es; [|discriminate E].
      destruct (region_forward _ _ _ _ _ _) as [[y'|] h']; [|discriminate E]. destruct info as [[new svs]|].
      - destruct (update_lists _ _ _) as [[? ?]|]; [|discriminate E]. injection E as _ _ <-. split; [reflexivity|]. eexists _, _. exact Es.
      - injection E as _ _ <-. split; [reflexivity|]. eexists _, _. exact Es. }
    intros E1 E2. destruct (Q _ _ _ _ _ E1) as (C1 & B1 & i1 & S1). destruct (Q _ _ _ _ _ E2) as (C2 & B2 & i2 & S2). destruct (step_active _ _ _ _ _ _ _ S1 S2) as [A _]. split; congruence.
  Qed.
  (** calls on batches of the same size: the same result up to the entries of the output *)
  Lemma calls_alike m m1 x e x1 e1 B g : inv N O D F p m -> inv N O D F p m1 -> a_reg m1 = a_reg m -> a_bonds m1 = a_bonds m -> a_svs m1 = a_svs m ->
    embedded_input m x = Ok e -> embedded_input m1 x1 = Ok e1 -> size 0 e = B -> size 0 e1 = B ->
    exists (r : res (list nat)) h o,
      match r with
      | Err ex => ad_forward svd m x g = ((Err ex, h), option_map (fun m' => mkAd (a_cfg m) (a_reg m') (a_bonds m') (a_svs m')) o) /\
                  ad_forward svd m1 x1 g = ((Err ex, h), option_map (fun m' => mkAd (a_cfg m1) (a_reg m') (a_bonds m') (a_svs m')) o)
      | Ok _ => exists y y1 m', o = Some m' /\ ad_forward svd m x g = ((Ok y, h), Some (mkAd (a_cfg m) (a_reg m') (a_bonds m') (a_svs m'))) /\
                  ad_forward svd m1 x1 g = ((Ok y1, h), Some (mkAd (a_cfg m1) (a_reg m') (a_bonds m') (a_svs m')))
      end.
  Proof.
    intros Hi Hi1 Er Eb Es He He1 HB HB1. destruct (given_shape N O D F p m x e Hi He) as (B' & Hs & HB'). rewrite HB in HB'. subst B'.
    destruct (given_shape N O D F p m1 x1 e1 Hi1 He1) as (B' & Hs1 & HB'). rewrite HB1 in HB'. subst B'. destruct (inv_sites N O D F p HN m Hi) as [Hpq Ep].
    unfold ad_forward. fold (embedded_input m x) (embedded_input m1 x1). rewrite He, He1, Er, HB, HB1.
    assert (Uu : forall a c, update_lists m1 a c = update_lists m a c) by (intros a c; unfold update_lists; rewrite Eb, Es, (i_bond _ _ _ _ _ _ Hi), (i_bond _ _ _ _ _ _ Hi1); reflexivity).
    destruct (region_step svd (a_reg m) B) as [[reg info]|ex] eqn:Est; [|exists (Err ex), g, None; cbn [option_map]; split; reflexivity].
    destruct (step_keeps svd D F O p (N - p) _ _ _ _ HD Hpq (i_reg _ _ _ _ _ _ Hi) Est) as (Gr & _).
    rewrite Ep in Hs, Hs1 at 1.
    pose proof (merged_exact_state D F O _ p (N - p) (g_active reg) (m_periodic (a_cfg m)) (m_parallel (a_cfg m)) e B g (gr_off _ _ _ _ _ _ Gr) Hpq HD (gr_active _ _ _ _ _ _ Gr) Hs) as Q.
    pose proof (merged_exact_state D F O _ p (N - p) (g_active reg) (m_periodic (a_cfg m1)) (m_parallel (a_cfg m1)) e1 B g (gr_off _ _ _ _ _ _ Gr) Hpq HD (gr_active _ _ _ _ _ _ Gr) Hs1) as Q1.
    destruct (contracted p (g_offset reg) g B) as [n|ex].
    - destruct Q as (y & Ey & _). destruct Q1 as (y1 & Ey1 & _). rewrite Ey, Ey1. destruct info as [[new svs]|].
      + rewrite Uu. destruct (update_lists m new svs) as [[b s]|ex].
        * exists (Ok []), (Some n), (Some (mkAd (a_cfg m) reg b s)), y, y1, (mkAd (a_cfg m) reg b s). split; [reflexivity|]. split; reflexivity.
        * exists (Err ex), (Some n), None. cbn [option_map]. split; reflexivity.
      + exists (Ok []), (Some n), (Some (with_reg m reg)), y, y1, (with_reg m reg). unfold with_reg. rewrite Eb, Es. split; [reflexivity|]. split; reflexivity.
    - rewrite Q, Q1. exists (Err ex), (match g with None => None | Some _ => Some B end), (Some (with_reg m reg)). unfold with_reg. rewrite Eb, Es. cbn [option_map]. split; reflexivity.
  Qed.
End Calls.

Section Adaptive.
  Notation K := R_cring.
  Notation T := (tensor R_ops).
  Variable svd : T -> T * T * T.
  Variables (N O D F : nat) (per par : bool) (label : option Z) (path : mpath) (std cutoff : R) (thr : Z) (rnd : nat -> list nat -> R) (m0 m : ad_mps).
  Hypotheses (Hinit : ad_init N O D F per par label path std cutoff thr rnd = Ok m0) (HN : 1 <= N) (HD : 0 < D).
  Hypothesis Hafter : history svd m0 m.
  Notation lab := (label_number N label).
  Lemma Lm : inv N O D F lab m. Proof. exact (Im svd N O D F per par label path std cutoff thr rnd m0 m Hinit HN HD Hafter). Qed.
  Lemma L2 : 1 < N. Proof. exact (H2 N O D F per par label path std cutoff thr rnd m0 Hinit HN HD). Qed.
  Lemma returned x e g B y g' m' : embedded_input m x = Ok e -> size 0 e = B -> ad_forward svd m x g = ((Ok y, g'), Some m') ->
    exists n, contracted lab (offset m') g B = Rows n /\ g' = Some n /\ output_of O D F per m' e y B n.
  Proof. exact (C71_returns svd N O D F per par label path std cutoff thr rnd m0 m Hinit HN HD Hafter x e g B y g' m'). Qed.

  (** C109: linear in the feature vector of each site, also when the call flips the merge state *)
  Theorem C109_multilinear x0 x1 x2 e0 e1 e2 g B s (a b : R) y0 g' m' :
    embedded_input m x0 = Ok e0 -> embedded_input m x1 = Ok e1 -> embedded_input m x2 = Ok e2 ->
    size 0 e0 = B -> size 0 e1 = B -> size 0 e2 = B -> s < N -> P_Mps3.mixes K B N F s a b e0 e1 e2 ->
    ad_forward svd m x0 g = ((Ok y0, g'), Some m') ->
    exists y1 y2 n, ad_forward svd m x1 g = ((Ok y1, g'), Some m') /\ ad_forward svd m x2 g = ((Ok y2, g'), Some m') /\
      shp y0 = [n; O] /\ shp y1 = [n; O] /\ shp y2 = [n; O] /\
      forall r c, r < n -> c < O -> get y2 [r; c] = (a * get y0 [r; c] + b * get y1 [r; c])%R.
  Proof.
    intros E0 E1 E2 B0 B1 B2 Hs Hm Ef.
    assert (Q : forall x e, embedded_input m x = Ok e -> size 0 e = B -> exists y, ad_forward svd m x g = ((Ok y, g'), Some m')).
    { intros x e Ee Eb. destruct (calls_alike svd N O D F lab HD L2 m m x0 e0 x e B g Lm Lm eq_refl eq_refl eq_refl E0 Ee B0 Eb) as (r & h & o & C). destruct r as [l|ex].
      - destruct C as (y & y1 & m1 & _ & C0 & C1). rewrite Ef in C0. injection C0 as _ <- C0. exists y1. rewrite C0. exact C1.
      - destruct C as (C0 & _). rewrite Ef in C0. discriminate C0. }
    destruct (Q x1 e1 E1 B1) as (y1 & F1). destruct (Q x2 e2 E2 B2) as (y2 & F2). clear Q.
    destruct (returned x0 e0 g B y0 g' m' E0 B0 Ef) as (n & Cn & _ & S0 & V0). destruct (returned x1 e1 g B y1 g' m' E1 B1 F1) as (n1 & Cn1 & _ & S1 & V1). destruct (returned x2 e2 g B y2 g' m' E2 B2 F2) as (n2 & Cn2 & _ & S2 & V2).
    rewrite Cn in Cn1, Cn2. injection Cn1 as <-. injection Cn2 as <-. exists y1, y2, n. split; [exact F1|]. split; [exact F2|]. split; [exact S0|]. split; [exact S1|]. split; [exact S2|].
    intros r c Hr Hc. rewrite V0, V1, V2 by assumption. 
    destruct (call_facts svd N O D F lab m x0 g _ m' HD L2 Lm Ef) as (Hi' & _). destruct (active_merged N O D F lab HD L2 m' Hi') as (NR & Ln).
    assert (Hb : source B r < B).
    { unfold contracted in Cn. unfold source. destruct (Nat.eqb_spec B 1) as [->|Hne]; [lia|]. destruct ((lab =? 0) && (offset m' =? 1)); [|injection Cn as <-; exact Hr].
      destruct g as [B'|]; [|discriminate Cn]. unfold broadcast in Cn. destruct (Nat.eqb_spec B' B) as [->|]; [injection Cn as <-; exact Hr|]. destruct (Nat.eqb_spec B' 1) as [->|]; [injection Cn as <-; exact Hr|]. destruct (Nat.eqb_spec B 1); [lia|discriminate Cn]. }
    apply (output_mixed D F a b per (g_active (a_reg m')) _ _ _ c s HD); try rewrite Ln; try assumption.
    - intros s' i Hs' Hi Hne. specialize (Hm (source B r) s' i Hb Hs' Hi). destruct (Nat.eqb_spec s' s); [contradiction|exact Hm].
    - intros i Hi. specialize (Hm (source B r) s i Hb Hs Hi). rewrite Nat.eqb_refl in Hm. exact Hm.
  Qed.
  (** C109: each row of the output depends on its own row of the input only, not on the rest of the batch, its size, or the batch size remembered from other calls *)
  Theorem C109_rows x1 e1 g1 B1 y1 g1' m1 n1 b1 x2 e2 g2 B2 y2 g2' m2 n2 b2 :
    embedded_input m x1 = Ok e1 -> embedded_input m x2 = Ok e2 -> size 0 e1 = B1 -> size 0 e2 = B2 ->
    ad_forward svd m x1 g1 = ((Ok y1, g1'), Some m1) -> ad_forward svd m x2 g2 = ((Ok y2, g2'), Some m2) ->
    shp y1 = [n1; O] -> shp y2 = [n2; O] -> b1 < n1 -> b2 < n2 ->
    (forall s i, s < N -> i < F -> get e1 [source B1 b1; s; i] = get e2 [source B2 b2; s; i]) ->
    forall c, c < O -> get y1 [b1; c] = get y2 [b2; c].
  Proof.
    intros E1 E2 HB1 HB2 F1 F2 S1 S2 Hb1 Hb2 H c Hc.
    destruct (returned x1 e1 g1 B1 y1 g1' m1 E1 HB1 F1) as (n & _ & _ & S1' & V1). rewrite S1 in S1'. injection S1' as <-.
    destruct (returned x2 e2 g2 B2 y2 g2' m2 E2 HB2 F2) as (n & _ & _ & S2' & V2). rewrite S2 in S2'. injection S2' as <-.
    rewrite V1, V2 by assumption. destruct (call_active svd m _ _ _ _ _ _ _ _ _ _ F1 F2) as [Ea _]. rewrite <- Ea.
    destruct (call_facts svd N O D F lab m x1 g1 _ m1 HD L2 Lm F1) as (Hi' & _). destruct (active_merged N O D F lab HD L2 m1 Hi') as (NR & Ln).
    apply (output_ext D F per _ _ _ c HD); [|exact NR]. intros s i Hs Hi. rewrite Ln in Hs. apply H; assumption.
  Qed.
  (** C109: parallel_eval has no influence: the same exceptions, entries, remembered batch size and new state *)
  Theorem C109_parallel x g : exists r0 r1 h o,
    ad_forward svd (switched true m) x g = ((r0, h), option_map (switched true) o) /\ ad_forward svd (switched false m) x g = ((r1, h), option_map (switched false) o) /\
    match r0, r1 with
    | Ok y0, Ok y1 => shp y1 = shp y0 /\ forall r c, r < size 0 y0 -> c < size 1 y0 -> get y1 [r; c] = get y0 [r; c]
    | Err ex, Err ex' => ex = ex'
    | _, _ => False
    end.
  Proof.
    assert (Is : forall q, inv N O D F lab (switched q m)) by (intros q; pose proof Lm as Hi; destruct Hi; constructor; assumption).
    assert (Ee : forall q, embedded_input (switched q m) x = embedded_input m x) by reflexivity.
    assert (Ep : forall q, m_periodic (a_cfg (switched q m)) = per) by (intros q; exact (Pm svd N O D F per par label path std cutoff thr rnd m0 m Hinit HN HD Hafter)).
    destruct (embedded_input m x) as [e|ex] eqn:He.
    2: { exists (Err ex), (Err ex), g, (Some m). unfold ad_forward. fold (embedded_input (switched true m) x) (embedded_input (switched false m) x). rewrite !Ee. cbn [option_map]. repeat split. }
    destruct (calls_alike svd N O D F lab HD L2 (switched true m) (switched false m) x e x e (size 0 e) g (Is true) (Is false) eq_refl eq_refl eq_refl (Ee true) (Ee false) eq_refl eq_refl) as (r & h & o & C).
    assert (Eo : forall q, option_map (fun m' => mkAd (a_cfg (switched q m)) (a_reg m') (a_bonds m') (a_svs m')) o = option_map (switched q) (option_map (fun m' => mkAd (a_cfg m) (a_reg m') (a_bonds m') (a_svs m')) o)) by (intros q; destruct o; reflexivity).
    destruct r as [l|ex].
    - destruct C as (y & y1 & m' & -> & C0 & C1).
      exists (Ok y), (Ok y1), h, (Some (mkAd (a_cfg m) (a_reg m') (a_bonds m') (a_svs m'))). split; [exact C0|]. split; [exact C1|].
      destruct (call_returns svd N O D F lab HD L2 _ _ _ _ _ _ _ _ (Is true) (Ee true) eq_refl C0) as (n & X & _ & S0 & V0).
      destruct (call_returns svd N O D F lab HD L2 _ _ _ _ _ _ _ _ (Is false) (Ee false) eq_refl C1) as (n' & X' & _ & S1 & V1).
      cbn [a_reg] in X, X'. rewrite X in X'. injection X' as <-. split; [congruence|]. unfold size. rewrite S0. cbn [nth]. intros r c Hr Hc. rewrite V0, V1 by assumption. reflexivity.
    - destruct C as (C0 & C1). rewrite Eo in C0, C1. exists (Err ex), (Err ex), h, (option_map (fun m' => mkAd (a_cfg m) (a_reg m') (a_bonds m') (a_svs m')) o). split; [exact C0|]. split; [exact C1|reflexivity].
  Qed.
End Adaptive.

(** ** the hypotheses are met: six inputs, a call that flips the merge state, and rows of input whose vectors at site 0 are
    combined as 2 * first + 5 * second *)
Definition row_input (v : R) : tensor R_cring := mkT [2; 6; 1] (fun i => if nth 1 i 0 =? 0 then v else 1%R).
Example ex_linear : exists m0, ad_init 6 1 2 1 false true None PNone (1/10) (1/10) 0 (fun _ _ => 0%R) = Ok m0 /\ history const_svd m0 (unit_model m0) /\
  (forall v, embedded_input (unit_model m0) (row_input v) = Ok (row_input v)) /\ P_Mps3.mixes R_cring 2 6 1 0 2%R 5%R (row_input 1) (row_input 3) (row_input 17) /\
  flip_due (unit_model m0) /\ exists y g' m', ad_forward const_svd (unit_model m0) (row_input 1) None = ((Ok y, g'), Some m').
Proof.
  destruct (C49_two_inputs_partial 6 1 2 1 false true None PNone (1/10)%R (1/10)%R 0%Z (fun _ _ => 0%R) 3 ltac:(lia) eq_refl eq_refl) as (m0 & E).
  assert (Hc : (0 < 1/10 <= 1)%R) by lra. pose proof (unit_active 6 _ _ _ _ _ _ _ m0 E ltac:(lia) Hc) as [A1 A2].
  pose proof (unit_after 6 _ _ _ _ _ _ _ m0 E ltac:(lia)) as Ha. pose proof (unit_due 6 _ _ _ _ _ _ _ m0 E ltac:(lia) ltac:(lia)) as Hd.
  assert (Hi : forall v, embedded_input (unit_model m0) (row_input v) = Ok (row_input v)).
  { intros v. destruct (init_inv 6 1 2 1 _ _ _ PNone _ _ _ _ m0 E ltac:(lia) ltac:(lia)) as (mods & _ & _ & I0 & _ & _ & _ & _ & _ & _ & _ & _ & Ep & _).
    unfold embedded_input. cbn [unit_model a_cfg]. rewrite Ep. cbn [route path_true rbind]. unfold mps_embed. cbn [row_input ndim shp List.length Nat.eqb orb assert_ rbind size nth].
    rewrite (i_in _ _ _ _ _ _ I0), (i_feat _ _ _ _ _ _ I0). reflexivity. }
  exists m0. split; [exact E|]. split; [apply after_history; exact Ha|]. split; [exact Hi|]. split; [|split; [exact Hd|]].
  - intros c s' i Hc' Hs Hi'. cbn [row_input get nth]. destruct (s' =? 0); [|split; reflexivity]. match goal with |- ?x = ?y => change (@eq R x y) end. change (17 = 2 * 1 + 5 * 3)%R. lra.
  - destruct (C48_flip_partial const_svd 6 1 2 1 false true None PNone _ _ _ _ m0 (unit_model m0) E ltac:(lia) ltac:(lia) Ha ltac:(lia) ltac:(lia) ltac:(lra) _ _ None 2 (Hi 1%R) eq_refl ltac:(left; cbn; lia) Hd A1) as (y & m' & Q).
    { cbn. lia. }
    exists y, (Some 2), m'. apply Q.
Qed.

Print Assumptions C109_multilinear.
Print Assumptions C109_rows.
Print Assumptions C109_parallel.
