(** * P_Ad: the adaptive mode: C48, C49, C50, C51, C52, C53, C55.
    All theorems are about every model that ad_init builds and every history ([after]: training
    steps, forward calls, registrations of feature maps, in any order and number). *)
From Coq Require Import Reals Lra.
From Verif Require Import Base Scalars Tensor Spec LinAlg Contractables Utils UtilsSpec SvdProofs P_Svd TorchMps TmSpec TmProofs TmFinal Adaptive AdMerge AdKinds AdSpec AdUnmerge AdFlip AdState AdCall AdHealthy.

(** the position of the output core: label_site, or input_dim // 2 *)
Definition label_number (N : nat) (label : option Z) : nat := match label with None => N / 2 | Some z => Z.to_nat z end.

Section C49.
  Notation K := R_cring.
  Lemma label_range N label l : label_of N label = Ok l -> l = label_number N label /\ l <= N.
  Proof.
    unfold label_of, label_number. set (z := match label with None => _ | Some z => z end). destruct ((0 <=? z)%Z && (z <=? Z.of_nat N)%Z) eqn:E; cbn [assert_ rbind]; [|discriminate].
    intros X. injection X as <-. apply andb_prop in E as [E0 E1]. apply Z.leb_le in E0, E1. split; [|lia]. unfold z. destruct label; [reflexivity|apply Nat2Z.id].
  Qed.
  (** C49: every model with at least two inputs can be constructed: the arguments are accepted
      exactly when the non-adaptive constructor accepts label_site and path *)
  Theorem C49_two_inputs_partial N O D F per par label path std cutoff thr rnd l :
    1 < N -> label_of N label = Ok l -> check_path N path = Ok tt ->
    exists m, ad_init N O D F per par label path std cutoff thr rnd = Ok m.
  Proof.
    intros HN Hl Hp. destruct (label_range N label l Hl) as [_ Hle]. unfold ad_init. rewrite Hl. cbn [rbind].
    destruct (build_ok K true N O D F l std false rnd) as (mods & Eb). rewrite Eb. cbn [rbind].
    pose proof (build_form K _ _ _ _ _ _ _ _ _ _ Eb) as Hf.
    destruct (form_merge D F O N l false mods 0 ltac:(lia) Hle Hf HN) as (l0 & M0 & K0 & Q0).
    destruct (form_merge D F O N l false mods 1 ltac:(lia) Hle Hf HN) as (l1 & M1 & K1 & Q1).
    unfold region_init. rewrite M0, M1. cbn [rbind]. change (g_active (mkReg l0 l1 0 0%Z thr cutoff)) with l0.
    rewrite (merged_len D F O 0 l (N - l) l0 ltac:(lia) ltac:(lia) K0). replace (l + (N - l)) with N by lia. rewrite Nat.eqb_refl. cbn [assert_ rbind].
    rewrite Hp. cbn [rbind]. eexists. reflexivity.
  Qed.
  (** ... but none with a single input can *)
  Theorem C49_one_input_refuted O D F per par label path std cutoff thr rnd :
    ad_init 1 O D F per par label path std cutoff thr rnd = Err AssertionError.
  Proof.
    unfold ad_init. destruct (label_of 1 label) as [l|] eqn:El; cbn [rbind].
    2: { unfold label_of, assert_ in El. destruct (_ && _) in El; cbn [rbind] in El; [discriminate El|]. injection El as <-. reflexivity. }
    destruct (label_range 1 label l El) as [_ Hle].
    destruct (build_ok K true 1 O D F l std false rnd) as (mods & Eb). rewrite Eb. cbn [rbind].
    pose proof (build_form K _ _ _ _ _ _ _ _ _ _ Eb) as Hf. destruct (form_merge_one D F O l false mods Hle Hf) as (a & b & M0 & M1 & Z).
    unfold region_init. rewrite M0, M1. cbn [rbind]. change (g_active (mkReg a b 0 0%Z thr cutoff)) with a. rewrite Z. reflexivity.
  Qed.
End C49.

Section C50.
  Notation K := R_cring.
  Lemma csem_no_bias F (m : module K) px o ub t b : m = InputRegion t ub b -> ub = false -> csem K F m px o = sem K F m px o.
  Proof. intros -> ->. reflexivity. Qed.
  Lemma csem_form N O D F lab mods px o : mps_form K N O D F lab false mods -> csem_all K F mods 0 px o = sem_all K F mods 0 px o.
  Proof.
    intros (l & t & r & -> & Hl & _ & Hr).
    assert (A : forall n l ind, region_list K n D F false l -> csem_all K F l ind px o = sem_all K F l ind px o).
    { intros n l' ind H. destruct n; cbn [region_list] in H; [subst l'; reflexivity|]. destruct H as (m & -> & t' & b & -> & _). reflexivity. }
    rewrite csem_all_app, sem_all_app. f_equal; [eapply A; exact Hl|]. cbn [app csem_all sem_all]. f_equal. eapply A; exact Hr.
  Qed.
  (** what an unmerged list of modules computes, and what a merged one does *)
  Lemma merged_value N O D F per (m : mps K) l o p e B : mps_form K N O D F (m_label m) false (m_modules m) -> m_label m <= N -> mequiv K D F O (m_modules m) l -> 0 < D -> o < O ->
    p < B -> closed D per (csem_all K F l 0 (px_of K e p) o) = value K per N (m_label m) D F (weights_of m) (fun s i => get e [p; s; i]) o.
  Proof.
    intros Hf Hle (_ & _ & _ & _ & Q) HD Ho Hp. rewrite <- (closed_eqc D per _ _ HD (Q 0 (px_of K e p) o Ho)).
    rewrite (csem_form N O D F (m_label m) _ _ _ Hf), (form_factors K N O D F false m Hle Hf). destruct per; reflexivity.
  Qed.
  (** C50: a list of modules built by MPS (without bias, as in adaptive mode) with any values of the
      parameters is merged without failure at both offsets, and the merged list computes the product
      of the cores of the unmerged list *)
  Theorem C50_merge_preserves N O D F per par label path std rnd m0 m o (x : tensor K) B g :
    mps_init K N O D F per par label path std false rnd = Ok m0 -> trained m0 m -> 1 < N -> 0 < D -> o < 2 -> shp x = [B; N; F] ->
    0 < label_number N label \/ g = Some B ->
    exists l, merge_mods K o (m_modules m) = Ok l /\
      exists out, region_forward K l per par x g = (Ok out, Some B) /\ shp out = [B; O] /\
        forall b c, b < B -> c < O -> get out [b; c] = value K per N (label_number N label) D F (weights_of m) (fun s i => get x [b; s; i]) c.
  Proof.
    intros E Ht HN HD Ho Hx Hg. pose proof (init_built K _ _ _ _ _ _ _ _ _ _ _ _ _ E Ht) as Hb. fold (label_number N label) in Hb.
    destruct Hb as [_ _ _ _ _ _ Hlab Hle _ Hform]. rewrite <- Hlab in *.
    destruct (form_merge D F O N _ false _ o Ho Hle Hform HN) as (l & El & Ml & Ql). exists l. split; [exact El|].
    assert (Ep : N = m_label m + (N - m_label m)) by lia. rewrite Ep in Hx at 1.
    destruct (merged_forward D F O o (m_label m) (N - m_label m) l per par x B g Ho ltac:(lia) HD Ml Hx Hg) as (out & Eo & Hs & Gv). exists out. split; [exact Eo|]. split; [exact Hs|].
    intros b c Hb Hc. rewrite Gv by assumption. apply (merged_value N O D F per m l c b x B); assumption.
  Qed.
  (** in particular it computes the same as the unmerged list, when that one works at all (C34) *)
  Theorem C50_same_as_unmerged N O D F per par label path std rnd m0 m o (x : tensor K) B g :
    mps_init K N O D F per par label path std false rnd = Ok m0 -> trained m0 m -> 1 < N -> 0 < D -> o < 2 -> shp x = [B; N; F] ->
    0 < label_number N label \/ g = Some B -> label_number N label <> 1 -> N - label_number N label <> 1 ->
    exists l out out', merge_mods K o (m_modules m) = Ok l /\
      region_forward K l per par x g = (Ok out, Some B) /\ region_forward K (m_modules m) per par x g = (Ok out', Some B) /\
      shp out = [B; O] /\ shp out' = [B; O] /\ forall b c, b < B -> c < O -> get out [b; c] = get out' [b; c].
  Proof.
    intros E Ht HN HD Ho Hx Hg H1 H2. destruct (C50_merge_preserves N O D F per par label path std rnd m0 m o x B g E Ht HN HD Ho Hx Hg) as (l & El & out & Eo & Hs & Gv).
    pose proof (init_built K _ _ _ _ _ _ _ _ _ _ _ _ _ E Ht) as Hb.
    destruct (region_value K N O D F per par par _ path false m x B g Hb H1 H2 Hg) as (out' & Eo' & Hs' & Gv'); [destruct per; lia|exact Hx|].
    exists l, out, out'. do 5 (split; [assumption|]). intros b c Hb' Hc. rewrite Gv, Gv' by assumption. reflexivity.
  Qed.
End C50.

Section Adaptive.
  Notation K := R_cring.
  Notation T := (tensor R_ops).
  Variable svd : T -> T * T * T.
  Variables (N O D F : nat) (per par : bool) (label : option Z) (path : mpath) (std cutoff : R) (thr : Z) (rnd : nat -> list nat -> R) (m0 m : ad_mps).
  Hypotheses (Hinit : ad_init N O D F per par label path std cutoff thr rnd = Ok m0) (HN : 1 <= N) (HD : 0 < D).
  Notation lab := (label_number N label).
  Notation active m := (g_active (a_reg m)).

  Lemma two : 1 < N.
  Proof. destruct (Nat.eq_dec N 1) as [E|]; [|lia]. exfalso. rewrite E, C49_one_input_refuted in Hinit. discriminate Hinit. Qed.
  Lemma inv0 : inv N O D F lab m0.
  Proof. destruct (init_inv N O D F per par label path std cutoff thr rnd m0 Hinit two HD) as (mods & _ & _ & H & _). exact H. Qed.
  Lemma start : offset m0 = 0 /\ g_counter (a_reg m0) = 0%Z /\ g_threshold (a_reg m0) = thr /\ g_cutoff (a_reg m0) = cutoff /\ m_periodic (a_cfg m0) = per.
  Proof. destruct (init_inv N O D F per par label path std cutoff thr rnd m0 Hinit two HD) as (mods & _ & _ & _ & _ & _ & A & B & C & E & G & _). auto. Qed.
  Lemma run_after seen flips : run svd m0 seen flips m -> after svd m0 m.
  Proof.
    induction 1 as [|seen flips m x e g r m' _ IH _ E|seen flips m x e g r m' _ IH _ E|seen flips m l0 l1 _ IH R0 R1|seen flips m f m' _ IH E]; [apply After_0|eapply After_S; [exact IH|]..].
    - eapply Ev_call; exact E.
    - eapply Ev_call; exact E.
    - apply Ev_train; assumption.
    - eapply Ev_register; exact E.
  Qed.

  Section After.
    Hypothesis Hafter : after svd m0 m.
    Lemma invm : inv N O D F lab m. Proof. apply (after_keeps svd N O D F lab m0 m HD two inv0 Hafter). Qed.
    Lemma cut_m : g_cutoff (a_reg m) = cutoff.
    Proof. destruct (after_keeps svd N O D F lab m0 m HD two inv0 Hafter) as (_ & _ & E & _). destruct start as (_ & _ & _ & E' & _). congruence. Qed.
    Lemma per_m : m_periodic (a_cfg m) = per.
    Proof. destruct (after_keeps svd N O D F lab m0 m HD two inv0 Hafter) as (_ & _ & _ & E & _). destruct start as (_ & _ & _ & _ & E'). congruence. Qed.

    (** C55: the parameters of both lists keep their number, kinds and shapes (for any torch.svd) *)
    Theorem C55_parameters : Forall2 retrained (g_list0 (a_reg m0)) (g_list0 (a_reg m)) /\ Forall2 retrained (g_list1 (a_reg m0)) (g_list1 (a_reg m)).
    Proof. destruct (after_keeps svd N O D F lab m0 m HD two inv0 Hafter) as (_ & _ & _ & _ & _ & _ & A & B). auto. Qed.
    (** ... in particular a call stores new values in the list that becomes active only; of the list that was
        active it changes nothing but the norm of cores that are not merged *)
    Theorem C55_call x g r m' : ad_forward svd m x g = (r, Some m') ->
      Forall2 retrained (g_list0 (a_reg m)) (g_list0 (a_reg m')) /\ Forall2 retrained (g_list1 (a_reg m)) (g_list1 (a_reg m')) /\
      Forall2 rescaled (active m) (g_list (a_reg m') (offset m)).
    Proof.
      intros E. destruct (call_facts svd N O D F lab m x g r m' HD two invm E) as (_ & _ & _ & _ & A & B & C). split; [exact A|]. split; [exact B|].
      assert (Same : forall l, Forall2 rescaled l l) by (induction l; constructor; [left; reflexivity|assumption]).
      destruct (embedded_input m x); [|subst m'; apply Same]. unfold offset. destruct (_ <=? _)%Z; [destruct C as (_ & _ & C); rewrite C; apply stale_rescaled|]. destruct C as (Eo & _ & E0 & E1 & _). unfold g_active, g_list. rewrite E0, E1. apply Same.
    Qed.

    (** C53, the part that holds for every torch.svd: the lists keep their length, every entry is a bond dimension *)
    Theorem C53_bounds : List.length (a_bonds m) = N + 2 /\ List.length (a_svs m) = N + 2 /\
      (forall i, i < N + 2 -> 1 <= nth i (a_bonds m) 0 <= D) /\ Forall (fun v => shp v = [D]) (a_svs m).
    Proof.
      destruct (i_bonds _ _ _ _ _ _ invm) as [A B]. destruct (i_svs _ _ _ _ _ _ invm) as [C E]. split; [exact A|]. split; [exact C|]. split; [|exact E].
      intros i Hi. rewrite Forall_forall in B. apply B. apply nth_In. lia.
    Qed.
    (** a call that does not flip, is rejected, or fails in the contraction leaves both lists alone *)
    Theorem C53_unchanged x g r m' : ad_forward svd m x g = (r, Some m') -> ~ flip_due m \/ (exists e, fst r = Err e) -> a_bonds m' = a_bonds m /\ a_svs m' = a_svs m.
    Proof.
      intros E [Hf|[e He]].
      - destruct (call_facts svd N O D F lab m x g r m' HD two invm E) as (_ & _ & _ & _ & _ & _ & C). destruct (embedded_input m x); [|subst m'; auto].
        unfold flip_due in Hf. apply Z.nle_gt in Hf. apply Z.leb_gt in Hf. rewrite Hf in C. tauto.
      - unfold ad_forward in E. destruct r as [r g']. cbn [fst] in He. subst r. destruct (let* x1 := _ in _) as [x2|]; [|injection E as _ _ <-; auto].
        destruct (region_step _ _ _) as [[reg info]|]; [|discriminate E]. destruct (region_forward _ _ _ _ _ _) as [[y|e'] g2].
        + destruct info as [[new svs]|]; [|discriminate E]. destruct (update_lists m new svs) as [[b s]|]; discriminate E.
        + injection E as _ _ <-. auto.
    Qed.

    Hypotheses (HF : 0 < F) (HO : 0 < O) (Hcut : (0 < cutoff)%R).
    (** C48: no call fails, for every history, when neither side of the output has exactly two sites *)
    Theorem C48_no_crash_partial x e g B : embedded_input m x = Ok e -> size 0 e = B -> 0 < lab \/ g = Some B ->
      (flip_due m -> healthy svd D F O cutoff (active m)) -> lab <> 2 -> N - lab <> 2 ->
      exists y m', ad_forward svd m x g = ((Ok y, Some B), Some m') /\ shp y = [B; O].
    Proof.
      intros He HB Hg Hh H1 H2. destruct (Z_le_dec (g_threshold (a_reg m)) (g_counter (a_reg m))) as [Hf|Hf].
      - specialize (Hh Hf). rewrite <- cut_m in Hh. pose proof Hcut as Hc. rewrite <- cut_m in Hc.
        destruct (call_flip svd N O D F lab HD HF HO two m x e g B invm Hc He HB Hf Hh) as [_ G]. destruct G as (y & m' & E & Hy & _); [|exact Hg|eauto].
        rewrite bad_iff. tauto.
      - destruct (call_no_flip svd N O D F lab HD HF HO two m x e g B invm He HB Hg Hf) as (y & E & Hy & _). eauto.
    Qed.
    (** with exactly two sites on one side every second flip fails: exactly the flips from offset 1 when the two sites are on the left,
        and those for which offset + label_site is even when they are on the right *)
    Theorem C48_two_sites_refuted x e g : embedded_input m x = Ok e -> flip_due m -> healthy svd D F O cutoff (active m) ->
      (lab = 2 /\ offset m = 1) \/ (N - lab = 2 /\ (offset m + lab) mod 2 = 0) ->
      ad_forward svd m x g = ((Err AssertionError, g), None).
    Proof.
      intros He Hf Hh Hb. rewrite <- cut_m in Hh. pose proof Hcut as Hc. rewrite <- cut_m in Hc.
      destruct (call_flip svd N O D F lab HD HF HO two m x e g _ invm Hc He eq_refl Hf Hh) as [G _]. apply G. rewrite bad_iff. exact Hb.
    Qed.
    (** ... and all others succeed *)
    Theorem C48_flip_partial x e g B : embedded_input m x = Ok e -> size 0 e = B -> 0 < lab \/ g = Some B -> flip_due m -> healthy svd D F O cutoff (active m) ->
      ~ ((lab = 2 /\ offset m = 1) \/ (N - lab = 2 /\ (offset m + lab) mod 2 = 0)) ->
      exists y m', ad_forward svd m x g = ((Ok y, Some B), Some m') /\ shp y = [B; O] /\ offset m' = (offset m + 1) mod 2.
    Proof.
      intros He HB Hg Hf Hh Hb. rewrite <- cut_m in Hh. pose proof Hcut as Hc. rewrite <- cut_m in Hc.
      destruct (call_flip svd N O D F lab HD HF HO two m x e g B invm Hc He HB Hf Hh) as [_ G]. destruct G as (y & m' & E & Hy & _); [rewrite bad_iff; exact Hb|exact Hg|].
      exists y, m'. split; [exact E|]. split; [exact Hy|]. destruct (call_facts svd N O D F lab m x g _ m' HD two invm E) as (_ & _ & _ & _ & _ & _ & C). rewrite He in C.
      unfold flip_due in Hf. apply Z.leb_le in Hf. rewrite Hf in C. apply C.
    Qed.

    (** C51: a flip that drops only singular values that are 0 does not change the output of the model: the call
        gives the same output as the same model with a larger merge_threshold, which does not flip *)
    Theorem C51_lossless_flip x e g B thr' : embedded_input m x = Ok e -> size 0 e = B -> 0 < lab \/ g = Some B -> flip_due m ->
      healthy svd D F O cutoff (active m) -> lossless svd D F O cutoff (active m) ->
      ~ ((lab = 2 /\ offset m = 1) \/ (N - lab = 2 /\ (offset m + lab) mod 2 = 0)) ->
      (g_counter (a_reg m) < thr')%Z ->
      let waiting := with_reg m (mkReg (g_list0 (a_reg m)) (g_list1 (a_reg m)) (g_offset (a_reg m)) (g_counter (a_reg m)) thr' (g_cutoff (a_reg m))) in
      exists y m' y' m'', ad_forward svd m x g = ((Ok y, Some B), Some m') /\ ad_forward svd waiting x g = ((Ok y', Some B), Some m'') /\
        offset m' <> offset m /\ offset m'' = offset m /\ shp y = [B; O] /\ shp y' = [B; O] /\ forall b c, b < B -> c < O -> get y [b; c] = get y' [b; c].
    Proof.
      intros He HB Hg Hf Hh Hl Hb Hthr waiting. rewrite <- cut_m in Hh, Hl. pose proof Hcut as Hc. rewrite <- cut_m in Hc.
      destruct (call_flip svd N O D F lab HD HF HO two m x e g B invm Hc He HB Hf Hh) as [_ G].
      destruct G as (y & m' & E & Hy & Gy & Ql & _); [rewrite bad_iff; exact Hb|exact Hg|].
      assert (Iw : inv N O D F lab waiting) by (pose proof invm as [A1 A2 A3 A4 A5 A6 [B1 B2 B3] A8 A9]; constructor; try assumption; constructor; assumption).
      destruct (call_no_flip svd N O D F lab HD HF HO two waiting x e g B Iw He HB Hg) as (y' & E' & Hy' & Gy').
      { unfold flip_due, waiting. cbn [with_reg a_reg g_threshold g_counter]. lia. }
      exists y, m', y', (counted waiting B). split; [exact E|]. split; [exact E'|]. split; [|split; [reflexivity|split; [exact Hy|split; [exact Hy'|]]]].
      - destruct (call_facts svd N O D F lab m x g _ m' HD two invm E) as (_ & _ & _ & _ & _ & _ & C). rewrite He in C.
        unfold flip_due in Hf. apply Z.leb_le in Hf. rewrite Hf in C. destruct C as (C & _). unfold offset. rewrite C. pose proof (gr_off _ _ _ _ _ _ (i_reg _ _ _ _ _ _ invm)) as Ho.
        destruct (g_offset (a_reg m)) as [|[|o]]; [discriminate|discriminate|lia].
      - intros b c Hb' Hc'. rewrite Gy, Gy' by assumption. specialize (Ql Hl). destruct Ql as (_ & _ & _ & _ & Q). symmetry. apply closed_eqc; [exact HD|]. apply Q. exact Hc'.
    Qed.

    (** C53: a successful call that flips sets the entries at the bonds between the merged cores, and no others.
        Bond i is the one between core i-1 and core i; the cores s and s+1 are merged when s has the parity of the offset. *)
    Theorem C53_flip_partial x e g y g' m' : embedded_input m x = Ok e -> 0 < lab \/ g = Some (size 0 e) -> flip_due m ->
      healthy svd D F O cutoff (active m) -> ad_forward svd m x g = ((Ok y, g'), Some m') ->
      forall i, i < N + 2 ->
        (1 <= i <= N /\ (i - 1) mod 2 = offset m ->
           exists p t S, pair_at (active m) (i - 1) = Some (p, t) /\ spectrum svd D F O p t S /\
             nth i (a_bonds m') 0 = count_ge cutoff (fun k => get S [k]) (Nat.min D (nsv D F O p)) /\
             shp (nth i (a_svs m') (mkT [] (fun _ => 0%R))) = [D] /\
             forall k, k < D -> get (nth i (a_svs m') (mkT [] (fun _ => 0%R))) [k] = if k <? nsv D F O p then get S [k] else 0%R) /\
        (~ (1 <= i <= N /\ (i - 1) mod 2 = offset m) ->
           nth i (a_bonds m') 0 = nth i (a_bonds m) 0 /\ forall z, nth i (a_svs m') z = nth i (a_svs m) z).
    Proof.
      intros He Hg Hf Hh Ef i Hi. rewrite <- cut_m in Hh. pose proof Hcut as Hc. rewrite <- cut_m in Hc.
      destruct (call_flip svd N O D F lab HD HF HO two m x e g _ invm Hc He eq_refl Hf Hh) as [Gb G].
      assert (Hb : ~ bad (g_offset (a_reg m)) lab (N - lab)) by (intros Hb; rewrite (Gb Hb) in Ef; discriminate Ef).
      destruct (G Hb Hg) as (y1 & m1 & E & _ & _ & _ & P). rewrite Ef in E. injection E as <- _ <-. specialize (P i Hi).
      pose proof (i_le _ _ _ _ _ _ invm) as Hle. assert (Hpq : 1 < lab + (N - lab)) by (pose proof two; lia).
      pose proof (gr_off _ _ _ _ _ _ (i_reg _ _ _ _ _ _ invm)) as Ho. pose proof (gr_active _ _ _ _ _ _ (i_reg _ _ _ _ _ _ invm)) as Ga.
      destruct (mk_facts _ _ _ Ho Hpq) as (Al & _). rewrite <- (proj2 Ga) in Al. pose proof (pair_aligned _ _ _ Al (i - 1)) as PA.
      rewrite (merged_cores D F O _ _ _ _ Ho Hpq Ga) in PA. rewrite xorb_false_r, AdSweep.odd_bit in PA.
      assert (Hbit : AdSweep.bit ((i - 1) mod 2) = AdSweep.bit (g_offset (a_reg m)) <-> (i - 1) mod 2 = offset m).
      { unfold offset. pose proof (Nat.mod_upper_bound (i - 1) 2 ltac:(lia)). destruct ((i - 1) mod 2) as [|[|z]]; [| |lia]; (destruct (g_offset (a_reg m)) as [|[|z']]; [| |lia]); cbn; split; congruence. }
      rewrite Hbit in PA. split.
      - intros [Hr Hm]. destruct PA as [_ PA]. destruct PA as [[pr t] Pr]; [split; [exact Hm|lia]|].
        destruct (Nat.eqb_spec i 0); [lia|]. rewrite Pr in P. destruct P as (S & Sp & K1 & K2 & K3 & K4). exists pr, t, S. split; [exact Pr|]. split; [exact Sp|]. rewrite cut_m in K1. split; [exact K1|]. split; [exact K3|exact K4].
      - intros Hn. destruct (Nat.eqb_spec i 0) as [->|Hz]; [exact P|]. destruct (pair_at (active m) (i - 1)) as [[pr t]|] eqn:Pr; [|exact P].
        exfalso. apply Hn. destruct PA as [PA _]. destruct PA as [A B]; [eauto|]. split; [lia|exact A].
    Qed.
  End After.

  (** C52: the counter, the offset and the number of flips, for every history *)
  Theorem C52_schedule seen flips : run svd m0 seen flips m ->
    Z.of_nat seen = (g_counter (a_reg m) + thr * Z.of_nat flips)%Z /\ offset m = flips mod 2.
  Proof.
    intros H. pose proof inv0 as I0. pose proof two as H2. destruct start as (So & Sc & St & _).
    assert (Hall : after svd m0 m /\ inv N O D F lab m /\ g_threshold (a_reg m) = thr /\ Z.of_nat seen = (g_counter (a_reg m) + thr * Z.of_nat flips)%Z /\ offset m = flips mod 2); [|tauto].
    assert (Base : inv N O D F lab m0 /\ g_threshold (a_reg m0) = thr) by auto.
    clear Hinit. revert H. generalize m. clear m. intros m H.
    induction H as [|seen flips m x e g r m' Hr IH Ee E|seen flips m x e g r m' Hr IH Ee E|seen flips m l0 l1 Hr IH R0 R1|seen flips m f m' Hr IH E].
    - split; [apply After_0|]. split; [exact I0|]. split; [exact St|]. rewrite Sc, So. split; [lia|reflexivity].
    - destruct IH as (A0 & A1 & A2 & A3 & A4). destruct (call_facts svd N O D F lab m x g r m' HD H2 A1 E) as (B1 & _ & B3 & _ & _ & _ & C). rewrite Ee in C.
      split; [eapply After_S; [exact A0|eapply Ev_call; exact E]|]. split; [exact B1|]. split; [congruence|]. pose proof (gr_off _ _ _ _ _ _ (i_reg _ _ _ _ _ _ A1)) as Ho.
      unfold offset in *. destruct (g_threshold (a_reg m) <=? g_counter (a_reg m))%Z.
      + destruct C as (C1 & C2 & _). destruct (Nat.eqb_spec (g_offset (a_reg m')) (g_offset (a_reg m))) as [X|X].
        * exfalso. rewrite C1 in X. destruct (g_offset (a_reg m)) as [|[|o]]; [discriminate X|discriminate X|lia].
        * split; [rewrite C2, A2; lia|]. rewrite C1, A4. symmetry. rewrite <- Nat.add_mod_idemp_l by lia. reflexivity.
      + destruct C as (C1 & C2 & _). rewrite C1, Nat.eqb_refl. split; [rewrite C2; lia|exact A4].
    - destruct IH as (A0 & A1 & A2 & A3 & A4). destruct (call_facts svd N O D F lab m x g r m' HD H2 A1 E) as (B1 & _ & B3 & _ & _ & _ & C). rewrite Ee in C. subst m'.
      split; [exact A0|]. auto.
    - destruct IH as (A0 & A1 & A2 & A3 & A4). pose proof (Ev_train svd m l0 l1 R0 R1) as Ev. destruct (event_keeps svd N O D F lab m _ HD H2 A1 Ev) as (B1 & _).
      split; [eapply After_S; [exact A0|exact Ev]|]. split; [exact B1|]. auto.
    - destruct IH as (A0 & A1 & A2 & A3 & A4). pose proof (Ev_register svd m f m' E) as Ev. destruct (event_keeps svd N O D F lab m _ HD H2 A1 Ev) as (B1 & B2 & _).
      split; [eapply After_S; [exact A0|exact Ev]|]. split; [exact B1|]. unfold ad_register in E. destruct (mps_register K (a_cfg m) f) as [c|]; cbn [rbind] in E; [|discriminate E]. injection E as <-. auto.
  Qed.
  (** a call flips exactly when the counter has reached the threshold; the whole batch is counted in both cases *)
  Theorem C52_flip_iff x e g r m' : after svd m0 m -> embedded_input m x = Ok e -> ad_forward svd m x g = (r, Some m') ->
    (offset m' <> offset m <-> (thr <= g_counter (a_reg m))%Z) /\
    g_counter (a_reg m') = (g_counter (a_reg m) + Z.of_nat (size 0 e) - (if (thr <=? g_counter (a_reg m))%Z then thr else 0))%Z.
  Proof.
    intros Ha He E. pose proof (invm Ha) as Im. destruct (call_facts svd N O D F lab m x g r m' HD two Im E) as (_ & _ & _ & _ & _ & _ & C). rewrite He in C.
    destruct (after_keeps svd N O D F lab m0 m HD two inv0 Ha) as (_ & Et & _). destruct start as (_ & _ & St & _). rewrite St in Et. rewrite Et in C.
    pose proof (gr_off _ _ _ _ _ _ (i_reg _ _ _ _ _ _ Im)) as Ho. unfold offset. destruct (Z.leb_spec thr (g_counter (a_reg m))) as [L|L].
    - destruct C as (C1 & C2 & _). split; [|rewrite C2; lia]. split; [intros _; exact L|]. intros _. rewrite C1. destruct (g_offset (a_reg m)) as [|[|o]]; [discriminate|discriminate|lia].
    - destruct C as (C1 & C2 & _). split; [|rewrite C2; lia]. split; [congruence|lia].
  Qed.
End Adaptive.
