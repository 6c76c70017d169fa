(** * AdCrash: the invariant of an adaptive model survives exceptions *)
From Coq Require Import Reals Lra.
From Verif Require Import Base Scalars Tensor Spec LinAlg Utils2Proofs Contractables ContrProofs Utils UtilsSpec UtilsProofs SvdProofs SvdFinal P_Svd TorchMps TmSpec TmProofs TmFinal TmStale Adaptive AdMerge AdSweep AdKinds AdSplit AdSpec AdUnmerge AdEqual AdFlip AdState AdCall AdHealthy Crash.

Section Crash.
  Notation K := R_cring.
  Notation T := (tensor R_ops).
  Notation mod_ := (module R_cring).
  Variable svd : T -> T * T * T.

  Lemma stored_retrained old new : Forall (no_region K) old -> Forall2 retrained old (stored old new).
  Proof.
    intros NR. unfold stored. destruct (_ =? _); [|apply retrained_refl; exact NR].
    revert new. induction NR as [|a old Na NR IH]; intros new; destruct new as [|b new]; cbn [stored_each]; try (constructor; fail); try (apply retrained_refl; constructor; assumption).
    destruct (list_eqb _ _) eqn:Es; [|apply retrained_refl; constructor; assumption]. apply list_eqb_eq in Es.
    constructor; [|apply IH]. destruct a; cbn [set_tensor mod_tensor] in *; [destruct Na|constructor; exact Es..].
  Qed.
  Lemma updated_each_keeps D new : forall svs ob os, Forall (rank_ok D) new -> Forall (fun d => 1 <= d <= D) ob -> Forall (fun v => shp v = [D]) os ->
    let q := updated_each D new svs ob os in
    List.length (fst q) = List.length ob /\ List.length (snd q) = List.length os /\ Forall (fun d => 1 <= d <= D) (fst q) /\ Forall (fun v => shp v = [D]) (snd q).
  Proof.
    induction new as [|n new IH]; intros svs ob os Hn Ho Hs; [cbn; auto|]. destruct svs as [|w svs]; [cbn; auto|]. destruct ob as [|b0 ob]; [cbn; auto|]. destruct os as [|v os]; [cbn; auto|].
    inversion Hn; subst. inversion Ho; subst. inversion Hs; subst. cbn [updated_each].
    assert (Q : forall d w', 1 <= d <= D -> shp w' = [D] -> let q := updated_each D new svs ob os in
      List.length (d :: fst q) = List.length (b0 :: ob) /\ List.length (w' :: snd q) = List.length (v :: os) /\ Forall (fun d => 1 <= d <= D) (d :: fst q) /\ Forall (fun v => shp v = [D]) (w' :: snd q)).
    { intros d w' Hd Hw. destruct (IH svs ob os) as (A & B & C & G); try assumption. cbn [List.length]. split; [f_equal; exact A|]. split; [f_equal; exact B|]. split; constructor; assumption. }
    destruct n as [d|]; [|apply Q; assumption]. destruct w as [w|]; [|cbn; auto]. destruct (list_eqb (shp w) [D]) eqn:Ew.
    - apply list_eqb_eq in Ew. apply Q; assumption.
    - cbn [fst snd List.length]. repeat split; try constructor; assumption.
  Qed.

  Lemma no_regions N O D F p m o : 1 < N -> inv N O D F p m -> o < 2 -> Forall (no_region K) (g_list (a_reg m) o).
  Proof.
    intros HN Hi Ho'. assert (Hpq : 1 < p + (N - p)) by (pose proof (i_le _ _ _ _ _ _ Hi); lia).
    eapply Forall_impl; [|apply (merged_no_region D F O o p (N - p) _ Ho' Hpq (gr_list D F O p (N - p) _ o (i_reg _ _ _ _ _ _ Hi) Ho'))]. intros x0 Hm. destruct x0; exact Hm.
  Qed.

  Lemma crash_keeps N O D F p m x g m' : 0 < D -> 1 < N -> inv N O D F p m -> ad_crash svd m x g = Some m' ->
    inv N O D F p m' /\ a_cfg m' = a_cfg m /\ g_threshold (a_reg m') = g_threshold (a_reg m) /\ g_cutoff (a_reg m') = g_cutoff (a_reg m) /\
    Forall2 retrained (g_list0 (a_reg m)) (g_list0 (a_reg m')) /\ Forall2 retrained (g_list1 (a_reg m)) (g_list1 (a_reg m')).
  Proof.
    intros HD HN Hi E. assert (Hpq : 1 < p + (N - p)) by (pose proof (i_le _ _ _ _ _ _ Hi); lia).
    pose proof (i_reg _ _ _ _ _ _ Hi) as Gr. pose proof (gr_off _ _ _ _ _ _ Gr) as Ho.
    pose proof (no_regions N O D F p m 0 HN Hi ltac:(lia)) as N0. pose proof (no_regions N O D F p m 1 HN Hi ltac:(lia)) as N1.
    change (g_list (a_reg m) 0) with (g_list0 (a_reg m)) in N0. change (g_list (a_reg m) 1) with (g_list1 (a_reg m)) in N1.
    unfold ad_crash in E. destruct (embedded_input m x) as [e|]; [|discriminate E].
    destruct (region_step svd (a_reg m) (size 0 e)) as [[reg [[new svs]|]]|] eqn:Es; [|discriminate E|].
    - injection E as <-. destruct (step_keeps svd D F O p (N - p) _ _ _ _ HD Hpq Gr Es) as (Gr' & Ht & Hc & R0 & R1 & Sc).
      destruct (g_threshold (a_reg m) <=? g_counter (a_reg m))%Z; [|destruct Sc as (_ & _ & _ & _ & X); discriminate X].
      destruct Sc as (_ & _ & _ & b' & s' & Ei & Hr). injection Ei as <- <-. cbn [a_cfg a_reg].
      split; [|auto]. destruct (i_bonds _ _ _ _ _ _ Hi) as [Lb Fb]. destruct (i_svs _ _ _ _ _ _ Hi) as [Ls Fs].
      assert (U : List.length (fst (updated m new svs)) = N + 2 /\ List.length (snd (updated m new svs)) = N + 2 /\
         Forall (fun d => 1 <= d <= D) (fst (updated m new svs)) /\ Forall (fun v => shp v = [D]) (snd (updated m new svs))).
      { unfold updated. destruct (_ && _); [|cbn [fst snd]; auto]. rewrite (i_bond _ _ _ _ _ _ Hi).
        destruct (updated_each_keeps D new svs (a_bonds m) (a_svs m)) as (A & B & C & G); try assumption. rewrite A, B. auto. }
      destruct U as (U1 & U2 & U3 & U4). destruct Hi; constructor; cbn [a_cfg a_reg a_bonds a_svs]; try assumption; split; assumption.
    - destruct (flip_crash svd (a_reg m)) as [reg|] eqn:Ef; [|discriminate E]. injection E as <-. cbn [with_reg a_cfg a_reg].
      assert (Q : good_region D F O p (N - p) reg /\ g_threshold reg = g_threshold (a_reg m) /\ g_cutoff reg = g_cutoff (a_reg m) /\
        Forall2 retrained (g_list0 (a_reg m)) (g_list0 reg) /\ Forall2 retrained (g_list1 (a_reg m)) (g_list1 reg)).
      { unfold flip_crash in Ef. destruct (unmerge_mods svd _ _) as [[[ms bonds] svs]|ex].
        2: { assert (reg = a_reg m) as -> by (destruct ex; congruence). split; [exact Gr|]. do 2 (split; [reflexivity|]). split; apply retrained_refl; assumption. }
        set (o' := (g_offset (a_reg m) + 1) mod 2) in *. assert (Ho' : o' < 2) by (apply Nat.mod_upper_bound; lia). cbv zeta in Ef.
        set (other := match merge_mods K o' ms with Ok _ => _ | Err _ => _ end) in Ef.
        assert (Ro : Forall2 retrained (g_list (a_reg m) o') other).
        { unfold other. destruct (merge_mods K o' ms); [apply stored_retrained|apply retrained_refl]; apply (no_regions N O D F p m o' HN Hi Ho'). }
        clearbody other.
        assert (Rs : Forall2 retrained (g_active (a_reg m)) (stale svd (g_cutoff (a_reg m)) (g_active (a_reg m)))) by (apply rescaled_retrained; [apply (no_regions N O D F p m _ HN Hi Ho)|apply stale_rescaled]).
        pose proof (retrained_merged D F O _ p (N - p) _ _ (gr_active D F O p (N - p) _ Gr) Rs) as Hm'.
        pose proof (retrained_merged D F O o' p (N - p) _ _ (gr_list D F O p (N - p) _ o' Gr Ho') Ro) as Hm.
        assert (Eo : o' = 0 /\ g_offset (a_reg m) = 1 \/ o' = 1 /\ g_offset (a_reg m) = 0).
        { unfold o'. destruct (g_offset (a_reg m)) as [|[|o]]; [right|left|lia]; split; reflexivity. }
        injection Ef as <-. unfold g_active, g_list in *. destruct Eo as [[Eo Eg]|[Eo Eg]]; rewrite Eo, Eg in *; cbn [Nat.eqb g_list0 g_list1 g_offset g_counter g_threshold g_cutoff] in *.
        - split; [constructor; cbn [g_offset g_list0 g_list1]; [lia|exact Hm|exact Hm']|]. do 2 (split; [reflexivity|]). split; assumption.
        - split; [constructor; cbn [g_offset g_list0 g_list1]; [lia|exact Hm'|exact Hm]|]. do 2 (split; [reflexivity|]). split; assumption. }
      destruct Q as (Q1 & Q2 & Q3 & Q4 & Q5). split; [|auto]. destruct Hi; constructor; assumption.
  Qed.

  Lemma step_inv N O D F p m m' : 0 < D -> 1 < N -> inv N O D F p m -> step svd m m' ->
    inv N O D F p m' /\ g_threshold (a_reg m') = g_threshold (a_reg m) /\ g_cutoff (a_reg m') = g_cutoff (a_reg m) /\
    m_periodic (a_cfg m') = m_periodic (a_cfg m) /\ m_parallel (a_cfg m') = m_parallel (a_cfg m) /\ m_path (a_cfg m') = m_path (a_cfg m) /\
    Forall2 retrained (g_list0 (a_reg m)) (g_list0 (a_reg m')) /\ Forall2 retrained (g_list1 (a_reg m)) (g_list1 (a_reg m')).
  Proof.
    intros HD HN Hi Ev. destruct Ev as [m l0 l1 H0 H1|m x g r m' E|m f m' E].
    - apply (event_keeps svd N O D F p m _ HD HN Hi). apply Ev_train; assumption.
    - unfold ad_call in E. destruct (ad_forward svd m x g) as [r1 [m1|]] eqn:E1.
      + injection E as <- <-. apply (event_keeps svd N O D F p m _ HD HN Hi). eapply Ev_call. exact E1.
      + injection E as _ E. destruct (crash_keeps N O D F p m x g m' HD HN Hi E) as (A & B & C & G & R0 & R1). rewrite B. auto 10.
    - apply (event_keeps svd N O D F p m _ HD HN Hi). eapply Ev_register. exact E.
  Qed.
  Lemma history_inv N O D F p m0 m : 0 < D -> 1 < N -> inv N O D F p m0 -> history svd m0 m ->
    inv N O D F p m /\ g_threshold (a_reg m) = g_threshold (a_reg m0) /\ g_cutoff (a_reg m) = g_cutoff (a_reg m0) /\
    m_periodic (a_cfg m) = m_periodic (a_cfg m0) /\ m_parallel (a_cfg m) = m_parallel (a_cfg m0) /\ m_path (a_cfg m) = m_path (a_cfg m0) /\
    Forall2 retrained (g_list0 (a_reg m0)) (g_list0 (a_reg m)) /\ Forall2 retrained (g_list1 (a_reg m0)) (g_list1 (a_reg m)).
  Proof.
    intros HD HN Hi H. induction H as [|m m' Ha IH Ev].
    - split; [exact Hi|]. do 5 (split; [reflexivity|]). split; apply retrained_refl; [apply (no_regions N O D F p m0 0 HN Hi); lia|apply (no_regions N O D F p m0 1 HN Hi); lia].
    - destruct IH as (A1 & A2 & A3 & A4 & A5 & A6 & A7 & A8). destruct (step_inv N O D F p m m' HD HN A1 Ev) as (B1 & B2 & B3 & B4 & B5 & B6 & B7 & B8).
      split; [exact B1|]. do 5 (split; [congruence|]). split; eapply retrained_trans; eassumption.
  Qed.
  (** every history without exceptions in a flip is one *)
  Lemma after_history m0 m : after svd m0 m -> history svd m0 m.
  Proof.
    induction 1 as [|m m' Ha IH Ev]; [constructor|]. eapply History_S; [exact IH|]. destruct Ev as [m l0 l1 H0 H1|m x g r m' E|m f m' E].
    - constructor; assumption.
    - eapply Step_call. unfold ad_call. rewrite E. reflexivity.
    - eapply Step_register. exact E.
  Qed.

  (** *** the failing flip, exactly *)
  Variables N O D F p : nat.
  Hypotheses (HD : 0 < D) (HF : 0 < F) (HO : 0 < O) (HN : 1 < N).
  Lemma bad_crash m x e g : inv N O D F p m -> (0 < g_cutoff (a_reg m))%R -> embedded_input m x = Ok e -> flip_due m ->
    healthy svd D F O (g_cutoff (a_reg m)) (g_active (a_reg m)) -> bad (g_offset (a_reg m)) p (N - p) ->
    exists m', ad_call svd m x g = ((Err AssertionError, g), Some m') /\ a_cfg m' = a_cfg m /\ a_bonds m' = a_bonds m /\ a_svs m' = a_svs m /\
      g_offset (a_reg m') = (g_offset (a_reg m) + 1) mod 2 /\ g_counter (a_reg m') = g_counter (a_reg m) /\
      g_list (a_reg m') (g_offset (a_reg m)) = stale svd (g_cutoff (a_reg m)) (g_active (a_reg m)) /\
      g_active (a_reg m') = g_list (a_reg m) ((g_offset (a_reg m) + 1) mod 2).
  Proof.
    intros Hi Hcut He Hf Hh Hb. destruct (call_flip svd N O D F p HD HF HO HN m x e g _ Hi Hcut He eq_refl Hf Hh) as [Gb _]. specialize (Gb Hb).
    assert (Hpq : 1 < p + (N - p)) by (pose proof (i_le _ _ _ _ _ _ Hi); lia).
    pose proof (gr_off _ _ _ _ _ _ (i_reg _ _ _ _ _ _ Hi)) as Ho. pose proof (gr_active _ _ _ _ _ _ (i_reg _ _ _ _ _ _ Hi)) as Ga.
    set (o := g_offset (a_reg m)) in *. assert (Ho' : (o + 1) mod 2 < 2) by (apply Nat.mod_upper_bound; lia).
    pose proof (gr_list _ _ _ _ _ _ _ (i_reg _ _ _ _ _ _ Hi) Ho') as Gs.
    destruct (unmerge_ok svd D F O HD HF HO (g_cutoff (a_reg m)) Hcut o p (N - p) _ Ho Hpq Ga Hh) as (u & bonds & svs & Eu & Wu & Ku & _).
    unfold ad_call. rewrite Gb. unfold ad_crash. rewrite He. unfold flip_due in Hf. apply Z.leb_le in Hf.
    destruct (flip_ok svd D F O HD HF HO (g_cutoff (a_reg m)) Hcut o p (N - p) _ _ Ho Hpq Ga Hh Gs) as (u' & b' & s' & Eu' & _ & _ & _ & _ & _ & Bad). rewrite Eu in Eu'. injection Eu' as <- <- <-. specialize (Bad Hb).
    assert (Es : exists ex, region_step svd (a_reg m) (size 0 e) = Err ex).
    { unfold region_step. rewrite Hf, Eu. cbn [rbind]. fold o. cbv zeta. destruct (merge_mods K ((o + 1) mod 2) u) as [n|]; cbn [rbind] in Bad |- *; [rewrite Bad|]; cbn [rbind]; eauto. }
    destruct Es as (ex & Es). rewrite Es.
    assert (Ef : flip_crash svd (a_reg m) = Some (if (o + 1) mod 2 =? 0 then mkReg (g_list (a_reg m) ((o + 1) mod 2)) (stale svd (g_cutoff (a_reg m)) (g_active (a_reg m))) ((o + 1) mod 2) (g_counter (a_reg m)) (g_threshold (a_reg m)) (g_cutoff (a_reg m))
         else mkReg (stale svd (g_cutoff (a_reg m)) (g_active (a_reg m))) (g_list (a_reg m) ((o + 1) mod 2)) ((o + 1) mod 2) (g_counter (a_reg m)) (g_threshold (a_reg m)) (g_cutoff (a_reg m)))).
    { unfold flip_crash. rewrite Eu. fold o. cbv zeta.
      assert (Eo : match merge_mods K ((o + 1) mod 2) u with Ok new => stored (g_list (a_reg m) ((o + 1) mod 2)) new | Err _ => g_list (a_reg m) ((o + 1) mod 2) end = g_list (a_reg m) ((o + 1) mod 2)).
      { destruct (kinds_cut u _ _ Ku) as (a & A & b & -> & Ka & Kb).
        apply Forall_app in Wu as [Wa We]. inversion We as [|? ? WA Wb]; subst.
        destruct (merge_mods_ok K D F O ((o + 1) mod 2) a A b p Ho' Wa) as [M1 M2]; try assumption.
        { apply unm_of_kinds. rewrite Ka. intros k Hk. eapply joinedb_in. exact Hk. }
        { apply unm_of_kinds. rewrite Kb. intros k Hk. eapply joinedb_in. exact Hk. }
        { rewrite (kinds_core_len K), Ka. apply (klen_joinedb D F O HD HF HO). }
        rewrite Ka, Kb in M1, M2. change (fmerge _ _) with (remerged o p (N - p)) in M1, M2.
        destruct (remerged_bad o p (N - p) Ho Hpq Hb) as [B2 Bl]. destruct (M1 B2) as (n & -> & Kn & _). unfold stored.
        assert (X : List.length (g_list (a_reg m) ((o + 1) mod 2)) <> List.length n).
        { rewrite <- (kinds_length K n), Kn, <- (kinds_length K (g_list _ _)). destruct Gs as [_ ->]. auto. }
        apply Nat.eqb_neq in X. rewrite X. reflexivity. }
      rewrite Eo. reflexivity. }
    rewrite Ef. cbn [option_map]. eexists. split; [reflexivity|]. cbn [with_reg a_cfg a_bonds a_svs a_reg]. do 3 (split; [reflexivity|]).
    assert (E2 : (o + 1) mod 2 = 0 /\ o = 1 \/ (o + 1) mod 2 = 1 /\ o = 0).
    { destruct o as [|[|o']]; [right|left|lia]; split; reflexivity. }
    unfold g_active at 2. unfold g_list at 3 4. destruct E2 as [[E2 E1]|[E2 E1]]; rewrite E2, E1; cbn [Nat.eqb g_offset g_counter g_list g_list0 g_list1]; repeat split; unfold g_active, g_list; cbn; reflexivity.
  Qed.
End Crash.
