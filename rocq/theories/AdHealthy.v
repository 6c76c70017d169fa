(** * AdHealthy: forward calls of an adaptive model when torch.svd returns decompositions *)
From Coq Require Import Reals Lra.
From Verif Require Import Base Scalars Tensor Spec LinAlg Utils2Proofs Contractables ContrProofs Utils UtilsSpec UtilsProofs SvdProofs SvdFinal P_Svd TorchMps TmSpec TmProofs TmFinal Adaptive AdMerge AdSweep AdKinds AdSplit AdSpec AdUnmerge AdEqual AdFlip AdState AdCall.

Lemma update_each_ok D new : forall svs ob os, List.length new = List.length svs -> List.length new = List.length ob -> List.length new = List.length os ->
  (forall i d, i < List.length new -> nth i new None = Some d -> exists w, nth i svs None = Some w /\ shp w = [D]) ->
  exists b s, update_each D new svs ob os = Ok (b, s) /\ List.length b = List.length new /\ List.length s = List.length new /\
    forall i, i < List.length new ->
      match nth i new None with
      | None => nth i b 0 = nth i ob 0 /\ (forall z, nth i s z = nth i os z)
      | Some d => nth i b 0 = d /\ (forall z, Some (nth i s z) = nth i svs None)
      end.
Proof.
  induction new as [|n new IH]; intros svs ob os L1 L2 L3 H.
  - exists [], []. split; [reflexivity|]. split; [reflexivity|]. split; [reflexivity|]. intros i Hi. cbn [List.length] in Hi; lia.
  - destruct svs as [|w svs]; [discriminate L1|]. destruct ob as [|b0 ob]; [discriminate L2|]. destruct os as [|v os]; [discriminate L3|].
    destruct (IH svs ob os) as (b & s & E & Lb & Ls & G); try (cbn [List.length] in *; lia).
    { intros i d Hi Hd. apply (H (S i) d); [cbn [List.length] in *; lia|exact Hd]. }
    cbn [update_each]. rewrite E. destruct n as [d|].
    + destruct (H 0 d) as (w' & Hw & Hs); [cbn [List.length] in *; lia|reflexivity|]. cbn [nth] in Hw. subst w. rewrite Hs, list_eqb_refl. cbn [rbind fst snd].
      exists (d :: b), (w' :: s). split; [reflexivity|]. split; [cbn [List.length] in *; lia|]. split; [cbn [List.length] in *; lia|]. intros [|i] Hi; [cbn; auto|]. apply G. cbn [List.length] in Hi; lia.
    + cbn [rbind fst snd]. exists (b0 :: b), (v :: s). split; [reflexivity|]. split; [cbn [List.length] in *; lia|]. split; [cbn [List.length] in *; lia|]. intros [|i] Hi; [cbn; auto|]. apply G. cbn [List.length] in Hi; lia.
Qed.

(** the pairs of a merged list start at the cores of the parity of the offset *)
Lemma pair_aligned o : forall (l : list (module R_cring)) odd, aligned o odd (kinds R_cring l) -> forall s,
  (exists x, pair_at l s = Some x) <-> (Nat.odd s = xorb o odd /\ s + 1 < region_core_len R_cring l).
Proof.
  intros l. induction l as [|m l IH]; intros odd A s.
  - cbn [pair_at region_core_len fold_right]. split; [intros [x X]; discriminate X|]. intros [_ X]. cbn in X. lia.
  - assert (Cl : region_core_len R_cring (m :: l) = mod_core_len m + region_core_len R_cring l) by reflexivity. rewrite Cl. clear Cl.
    assert (Step : forall odd', aligned o odd' (kinds R_cring l) -> xorb odd (Nat.odd (mod_core_len m)) = odd' -> mod_core_len m <= s ->
      (exists x, pair_at (m :: l) s = Some x) <-> (Nat.odd s = xorb o odd /\ s + 1 < mod_core_len m + region_core_len R_cring l)).
    { intros odd' A' Ho Hs. cbn [pair_at]. destruct (Nat.ltb_spec s (mod_core_len m)); [lia|]. rewrite (IH odd' A').
      assert (Eo : Nat.odd s = xorb (Nat.odd (s - mod_core_len m)) (Nat.odd (mod_core_len m))) by (rewrite <- Nat.odd_add; f_equal; lia). rewrite Eo, <- Ho.
      split; (intros [X Y]; split; [|lia]); destruct (Nat.odd (s - mod_core_len m)), (Nat.odd (mod_core_len m)), o, odd; cbn in *; congruence. }
    destruct m as [t ub b|t|t|t|t lo]; cbn [AdMerge.kinds map AdMerge.kind_of aligned] in A.
    + destruct A.
    + destruct A as [A1 A2]. destruct (Nat.lt_ge_cases s 1) as [Hs|Hs].
      * assert (s = 0) by lia. subst s. cbn [pair_at mod_core_len Nat.ltb Nat.leb]. split; [intros [x X]; discriminate X|]. intros [X Y]. exfalso. destruct A1 as [A1|A1].
        -- destruct o, odd; cbn in X; congruence.
        -- apply map_eq_nil in A1. subst l. cbn in Y. lia.
      * apply (Step (negb odd) A2); [|exact Hs]. cbn. destruct odd; reflexivity.
    + destruct A as [A1 A2]. destruct (Nat.lt_ge_cases s 1) as [Hs|Hs].
      * assert (s = 0) by lia. subst s. cbn [pair_at mod_core_len Nat.ltb Nat.leb]. split; [intros [x X]; discriminate X|]. intros [X Y]. exfalso. destruct A1 as [A1|A1].
        -- destruct o, odd; cbn in X; congruence.
        -- apply map_eq_nil in A1. subst l. cbn in Y. lia.
      * apply (Step (negb odd) A2); [|exact Hs]. cbn. destruct odd; reflexivity.
    + destruct A as (A1 & A2 & A3). subst odd. assert (Ec : mod_core_len (MergedInput t) = 2 * size 0 t) by reflexivity.
      destruct (Nat.lt_ge_cases s (2 * size 0 t)) as [Hs|Hs].
      * cbn [pair_at]. rewrite Ec in *. destruct (Nat.ltb_spec s (2 * size 0 t)) as [_|]; [|lia].
        assert (Ex : xorb o o = false) by (destruct o; reflexivity). rewrite Ex, odd_bit. pose proof (Nat.div_mod s 2 ltac:(lia)). destruct (mod2_cases s) as [E|E]; rewrite E in *; cbn [Nat.eqb bit].
        -- split; [intros _; split; [reflexivity|lia]|]. intros _. eexists. reflexivity.
        -- split; [intros [x X]; discriminate X|]. intros [X _]. discriminate X.
      * apply (Step o A3); [|rewrite Ec; exact Hs]. rewrite Ec, odd_2h. destruct o; reflexivity.
    + destruct A as (A1 & A2). subst odd. destruct (Nat.lt_ge_cases s 2) as [Hs|Hs].
      * cbn [pair_at mod_core_len]. destruct (Nat.ltb_spec s 2) as [_|]; [|lia]. assert (Ex : xorb o o = false) by (destruct o; reflexivity). rewrite Ex.
        destruct s as [|[|s]]; [| |lia]; cbn [Nat.eqb].
        -- split; [intros _; split; [reflexivity|lia]|]. intros _. eexists. reflexivity.
        -- split; [intros [x X]; discriminate X|]. intros [X _]. discriminate X.
      * apply (Step o A2); [|exact Hs]. cbn. destruct o; reflexivity.
Qed.
Lemma bad_iff o p q : bad o p q <-> (p = 2 /\ o = 1) \/ (q = 2 /\ (o + p) mod 2 = 0).
Proof.
  unfold bad. assert (E : (o + p + 1) mod 2 = 1 <-> (o + p) mod 2 = 0); [|tauto].
  pose proof (mod2_cases (o + p)) as C. rewrite Nat.add_mod by lia. destruct C as [C|C]; rewrite C; cbn; lia.
Qed.

Section Healthy.
  Notation K := R_cring.
  Notation T := (tensor R_ops).
  Notation mod_ := (module R_cring).
  Variable svd : T -> T * T * T.
  Variables N O D F p : nat.
  Hypotheses (HD : 0 < D) (HF : 0 < F) (HO : 0 < O) (HN : 1 < N).

  (** the state after a call that does not flip *)
  Definition counted (m : ad_mps) (B : nat) : ad_mps :=
    with_reg m (mkReg (g_list0 (a_reg m)) (g_list1 (a_reg m)) (g_offset (a_reg m)) (g_counter (a_reg m) + Z.of_nat B)%Z (g_threshold (a_reg m)) (g_cutoff (a_reg m))).
  Lemma call_no_flip m x e g B : inv N O D F p m -> embedded_input m x = Ok e -> size 0 e = B -> 0 < p \/ g = Some B -> ~ flip_due m ->
    exists y, ad_forward svd m x g = ((Ok y, Some B), Some (counted m B)) /\ shp y = [B; O] /\
      forall b c, b < B -> c < O -> get y [b; c] = closed D (m_periodic (a_cfg m)) (csem_all K F (g_active (a_reg m)) 0 (px_of K e b) c).
  Proof.
    intros Hi He HB Hg Hf. destruct (given_shape N O D F p m x e Hi He) as (B' & Hs & HB'). rewrite HB in HB'. subst B'.
    assert (Hpq : 1 < p + (N - p)) by (pose proof (i_le _ _ _ _ _ _ Hi); lia). assert (Ep : N = p + (N - p)) by (pose proof (i_le _ _ _ _ _ _ Hi); lia). rewrite Ep in Hs at 1.
    destruct (merged_forward D F O _ p (N - p) (g_active (a_reg m)) (m_periodic (a_cfg m)) (m_parallel (a_cfg m)) e B g (gr_off _ _ _ _ _ _ (i_reg _ _ _ _ _ _ Hi)) Hpq HD (gr_active _ _ _ _ _ _ (i_reg _ _ _ _ _ _ Hi)) Hs Hg) as (y & Ey & Hy & Gy).
    exists y. split; [|split; assumption]. unfold ad_forward. fold (embedded_input m x). rewrite He. unfold region_step, flip_due in *.
    assert (X : (g_threshold (a_reg m) <=? g_counter (a_reg m))%Z = false) by (apply Z.leb_gt; lia). rewrite X, HB.
    change (g_active (mkReg _ _ _ _ _ _)) with (g_active (a_reg m)). rewrite Ey. reflexivity.
  Qed.
  Lemma call_flip m x e g B : inv N O D F p m -> (0 < g_cutoff (a_reg m))%R -> embedded_input m x = Ok e -> size 0 e = B -> flip_due m ->
    healthy svd D F O (g_cutoff (a_reg m)) (g_active (a_reg m)) ->
    (bad (g_offset (a_reg m)) p (N - p) -> ad_forward svd m x g = ((Err AssertionError, g), None)) /\
    (~ bad (g_offset (a_reg m)) p (N - p) -> 0 < p \/ g = Some B ->
      exists y m', ad_forward svd m x g = ((Ok y, Some B), Some m') /\ shp y = [B; O] /\
        (forall b c, b < B -> c < O -> get y [b; c] = closed D (m_periodic (a_cfg m)) (csem_all K F (g_active (a_reg m')) 0 (px_of K e b) c)) /\
        (lossless svd D F O (g_cutoff (a_reg m)) (g_active (a_reg m)) -> mequiv K D F O (g_active (a_reg m)) (g_active (a_reg m'))) /\
        forall i, i < N + 2 -> 
          match (if i =? 0 then None else pair_at (g_active (a_reg m)) (i - 1)) with
          | None => nth i (a_bonds m') 0 = nth i (a_bonds m) 0 /\ forall z, nth i (a_svs m') z = nth i (a_svs m) z
          | Some (pr, t) => exists S, spectrum svd D F O pr t S /\ kept D F O (g_cutoff (a_reg m)) pr S (nth i (a_bonds m') 0) (nth i (a_svs m') (mkT [] (fun _ => 0%R)))
          end).
  Proof.
    intros Hi Hcut He HB Hf Hh. destruct (given_shape N O D F p m x e Hi He) as (B' & Hs & HB'). rewrite HB in HB'. subst B'.
    assert (Hpq : 1 < p + (N - p)) by (pose proof (i_le _ _ _ _ _ _ Hi); lia). assert (Ep : N = p + (N - p)) by (pose proof (i_le _ _ _ _ _ _ Hi); lia). rewrite Ep in Hs at 1.
    pose proof (gr_off _ _ _ _ _ _ (i_reg _ _ _ _ _ _ Hi)) as Ho. pose proof (gr_active _ _ _ _ _ _ (i_reg _ _ _ _ _ _ Hi)) as Ga.
    set (o := g_offset (a_reg m)) in *. assert (Ho' : (o + 1) mod 2 < 2) by (apply Nat.mod_upper_bound; lia).
    pose proof (gr_list _ _ _ _ _ _ _ (i_reg _ _ _ _ _ _ Hi) Ho') as Gs.
    destruct (flip_ok svd D F O HD HF HO (g_cutoff (a_reg m)) Hcut o p (N - p) _ _ Ho Hpq Ga Hh Gs) as (u & bonds & svs & Eu & Ru & Wu & Lu & _ & Good & Bad).
    unfold flip_due in Hf. apply Z.leb_le in Hf.
    split.
    - intros Hb. unfold ad_forward. fold (embedded_input m x). rewrite He. unfold region_step. rewrite Hf, Eu. cbn [rbind]. fold o. cbv zeta.
      specialize (Bad Hb). destruct (merge_mods K ((o + 1) mod 2) u) as [n|e']; cbn [rbind] in Bad |- *; [|injection Bad as ->; reflexivity]. rewrite Bad. reflexivity.
    - intros Hb Hg. destruct (Good Hb) as (new & En & Gn & Qn).
      set (reg := if (o + 1) mod 2 =? 0 then mkReg new (stale svd (g_cutoff (a_reg m)) (g_active (a_reg m))) ((o + 1) mod 2) (g_counter (a_reg m) - g_threshold (a_reg m) + Z.of_nat B) (g_threshold (a_reg m)) (g_cutoff (a_reg m))
          else mkReg (stale svd (g_cutoff (a_reg m)) (g_active (a_reg m))) new ((o + 1) mod 2) (g_counter (a_reg m) - g_threshold (a_reg m) + Z.of_nat B) (g_threshold (a_reg m)) (g_cutoff (a_reg m))).
      assert (Es : region_step svd (a_reg m) B = Ok (reg, Some (None :: bonds, None :: svs))).
      { unfold region_step. rewrite Hf, Eu. cbn [rbind]. fold o. cbv zeta. destruct (merge_mods K ((o + 1) mod 2) u) as [n|e']; cbn [rbind] in En |- *; [|discriminate En]. rewrite En. reflexivity. }
      assert (Ea : g_active reg = new) by (unfold reg, g_active, g_list; destruct (Nat.eqb_spec ((o + 1) mod 2) 0) as [E|E]; cbn [g_offset g_list0 g_list1]; [rewrite E; reflexivity|]; apply Nat.eqb_neq in E; rewrite E; reflexivity).
      destruct (merged_forward D F O _ p (N - p) new (m_periodic (a_cfg m)) (m_parallel (a_cfg m)) e B g Ho' Hpq HD Gn Hs Hg) as (y & Ey & Hy & Gy).
      destruct (i_bonds _ _ _ _ _ _ Hi) as [Lb Fb]. destruct (i_svs _ _ _ _ _ _ Hi) as [Ls Fs].
      destruct Ru as (R1 & R2 & R3). pose proof (merged_cores D F O o p (N - p) _ Ho Hpq Ga) as Cl. fold o in Cl. rewrite Cl in R1, R2, R3.
      assert (Hsv : forall i d, i < List.length (None :: bonds) -> nth i (None :: bonds) None = Some d -> exists w, nth i (None :: svs) None = Some w /\ shp w = [D]).
      { intros [|i] d Hii Hd; [discriminate Hd|]. cbn [nth List.length] in *. specialize (R3 i ltac:(lia)).
        destruct (pair_at (g_active (a_reg m)) i) as [[pr t]|]; [|congruence]. destruct R3 as (S & d' & v & _ & Kp & _ & Ev). exists v. split; [exact Ev|]. apply Kp. }
      assert (X2 : List.length (@None nat :: bonds) = List.length (@None T :: svs)) by (cbn [List.length]; f_equal; exact (eq_trans R1 (eq_sym R2))).
      assert (X1 : List.length (@None nat :: bonds) = List.length (a_bonds m)) by (cbn [List.length]; lia).
      assert (X3 : List.length (@None nat :: bonds) = List.length (a_svs m)) by (rewrite Ls; cbn [List.length]; lia).
      destruct (update_each_ok D (None :: bonds) (None :: svs) (a_bonds m) (a_svs m) X2 X1 X3 Hsv) as (b & s & Ue & Lb' & Ls' & Gu).
      exists y, (mkAd (a_cfg m) reg b s). split; [|split; [|split; [|split]]].
      + unfold ad_forward. fold (embedded_input m x). rewrite He, HB, Es, Ea, Ey. unfold update_lists.
        apply Nat.eqb_eq in X1. rewrite X1. cbn [assert_ rbind]. assert (X2' : (List.length (@None nat :: bonds) =? List.length (@None (tensor K) :: svs)) = true) by (apply Nat.eqb_eq; exact X2). rewrite X2'. cbn [assert_ rbind]. rewrite (i_bond _ _ _ _ _ _ Hi), Ue. reflexivity.
      + exact Hy.
      + cbn [a_reg]. rewrite Ea. exact Gy.
      + cbn [a_reg]. rewrite Ea. intros Hl. eapply mequiv_trans; [apply (proj1 Lu); exact Hl|exact Qn].
      + intros i Hii. cbn [a_bonds a_svs]. assert (Hi' : i < List.length (@None nat :: bonds)) by (cbn [List.length]; lia). specialize (Gu i Hi').
        destruct i as [|i]; [cbn [nth Nat.eqb] in *; exact Gu|]. cbn [Nat.eqb]. replace (Datatypes.S i - 1) with i by lia. cbn [nth] in Gu. specialize (R3 i ltac:(lia)).
        destruct (pair_at (g_active (a_reg m)) i) as [[pr t]|].
        * destruct R3 as (S & d & v & Sp & Kp & E1 & E2). rewrite E1 in Gu. destruct Gu as [G1 G2]. exists S. split; [exact Sp|].
          rewrite G1. specialize (G2 (mkT [] (fun _ => 0%R))). pose proof (eq_trans G2 E2 : Some _ = Some (v : T)) as G3. injection G3 as G3. cbn [nth] in G3 |- *. revert G3. set (w := nth _ s _). intros G3. assert (Ew : w = v) by exact G3. rewrite Ew. exact Kp.
        * rewrite R3 in Gu. exact Gu.
  Qed.
End Healthy.
