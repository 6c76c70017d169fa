(** * AdCall: what a forward call does to the state of an adaptive model, for any torch.svd *)
From Coq Require Import Reals Lra.
From Verif Require Import Base Scalars Tensor Spec LinAlg Utils2Proofs Contractables ContrProofs Utils UtilsSpec UtilsProofs SvdProofs SvdFinal P_Svd TorchMps TmSpec TmProofs TmFinal Adaptive AdMerge AdSweep AdKinds AdSplit AdSpec AdUnmerge AdEqual AdFlip AdState.

Section Call.
  Notation K := R_cring.
  Notation T := (tensor R_ops).
  Notation mod_ := (module R_cring).
  Variable svd : T -> T * T * T.

  (** *** ranks *)
  Lemma count_above_le c l : count_above c l <= List.length l.
  Proof. induction l as [|x l IH]; cbn [count_above List.length]; [lia|]. destruct (Rlt_dec x c); lia. Qed.
  Lemma svd_flex_rank t s D c b n A B d sv : 0 < D -> svd_flex svd t s (Some D) c b n = Ok (A, B, d, sv) -> 1 <= d <= D.
  Proof.
    intros HD. destruct D as [|D]; [lia|]. unfold svd_flex. intros E.
    destruct (parse_svd s) as [[[is ls] rs]|]; cbn [rbind] in E; [|discriminate E].
    destruct (assert_ (forallb islower _)) as [[]|]; cbn [rbind] in E; [|discriminate E].
    destruct (assert_ _) as [[]|]; cbn [rbind] in E; [|discriminate E].
    destruct (assert_ _) as [[]|]; cbn [rbind] in E; [|discriminate E].
    destruct (filter _ ls) as [|bc rest]; [discriminate E|].
    destruct (einsum _ _) as [t'|]; cbn [rbind] in E; [|discriminate E].
    destruct (view _ _) as [m|]; cbn [rbind] in E; [|discriminate E].
    destruct (svd m) as [[U S0] V].
    match type of E with context [cut_vec ?a ?b] => set (S2 := cut_vec a b) in E end.
    assert (Hc : count_above c (vec_list S2) <= S D).
    { etransitivity; [apply count_above_le|]. unfold vec_list. rewrite map_length, seq_length. unfold S2, cut_vec. cbn [shp nth]. lia. }
    clearbody S2. destruct (match n with None => _ | Some _ => _ end) as [sv'|]; cbn [rbind] in E; [|discriminate E].
    destruct (Nat.eqb_spec (count_above c (vec_list S2)) 0) as [|Hz]; [discriminate E|]. cbv zeta in E.
    destruct (if b then _ else _) as [LR|]; cbn [rbind] in E; [|discriminate E].
    destruct (view _ _) as [lt|]; cbn [rbind] in E; [|discriminate E].
    destruct (view _ _) as [rt|]; cbn [rbind] in E; [|discriminate E].
    destruct (if list_eqb _ _ then _ else _) as [lt'|]; cbn [rbind] in E; [|discriminate E].
    destruct (if list_eqb _ _ then _ else _) as [rt'|]; cbn [rbind] in E; [|discriminate E].
    injection E as _ _ E _. subst d. split; [|exact Hc]. apply Nat.neq_0_lt_0. exact Hz.
  Qed.
  Definition rank_ok (D : nat) (o : option nat) : Prop := match o with None => True | Some d => 1 <= d <= D end.
  Lemma rmap_Forall {A B} (f : A -> res B) (P : B -> Prop) l r : (forall a b, f a = Ok b -> P b) -> rmap f l = Ok r -> Forall P r.
  Proof.
    intros H. revert r. induction l as [|a l IH]; intros r E; cbn [rmap] in E; [injection E as <-; constructor|].
    destruct (f a) as [b|] eqn:Ea; cbn [rbind] in E; [|discriminate E]. destruct (rmap f l) as [r'|]; cbn [rbind] in E; [|discriminate E].
    injection E as <-. constructor; [eapply H; exact Ea|apply IH; reflexivity].
  Qed.
  Lemma tl_Forall {A} (P : A -> Prop) l : Forall P l -> Forall P (tl l).
  Proof. intros H. destruct H; [constructor|assumption]. Qed.
  Lemma unmerge_each_rank D F O c l ms bonds svs : 0 < D -> Forall (wf K D F O) l -> unmerge_each svd c l = Ok (ms, bonds, svs) -> Forall (rank_ok D) bonds.
  Proof.
    intros HD W. revert ms bonds svs. induction W as [|m l Wm W IH]; intros ms bonds svs E; cbn [unmerge_each] in E; [injection E as <- <- <-; constructor|].
    destruct (match unmerge_mod svd c m with Some _ => _ | None => _ end) as [[[ms1 b1] s1]|] eqn:E1; cbn [rbind] in E; [|discriminate E].
    destruct (unmerge_each svd c l) as [[[ms2 b2] s2]|]; cbn [rbind] in E; [|discriminate E]. injection E as <- <- <-.
    apply Forall_app. split; [|eapply IH; reflexivity]. clear IH.
    destruct m as [t ub b|t|t|t|t lo]; cbn [unmerge_mod] in E1.
    - discriminate E1.
    - cbn [assert_ rbind] in E1. injection E1 as <- <- <-. repeat constructor.
    - cbn [assert_ rbind] in E1. injection E1 as <- <- <-. repeat constructor.
    - destruct Wm as (n & Hn & Ht). cbv zeta in E1. assert (Es : size 1 t = D) by (unfold size; rewrite Ht; reflexivity). rewrite Es in E1.
      destruct (rmap _ _) as [parts|] eqn:Ep; cbn [rbind] in E1; [|discriminate E1].
      destruct (stack0 _) as [st|]; cbn [rbind] in E1; [|discriminate E1]. destruct (input_region _ _ _ _) as [r|]; cbn [rbind] in E1; [|discriminate E1].
      injection E1 as _ <- _.
      apply (rmap_Forall _ (fun p => 1 <= snd (fst p) <= D)) in Ep.
      2: { intros s [[[A B] d] sv] Ea. cbn [fst snd]. eapply svd_flex_rank; [exact HD|exact Ea]. }
      cbn [tl]. clear - Ep. induction Ep as [|[[[A B] d] sv] parts Hp Ep IH]; [constructor|]. cbn [flat_map app]. constructor; [exact Hp|]. constructor; [exact Logic.I|exact IH].
    - destruct lo; cbv zeta in E1.
      + assert (Es : size 2 t = D) by (unfold size; rewrite Wm; reflexivity). rewrite Es in E1.
        destruct (svd_flex _ _ _ _ _ _ _) as [[[[A B] d] sv]|] eqn:Es'; cbn [rbind] in E1; [|discriminate E1]. injection E1 as <- <- <-.
        apply svd_flex_rank in Es'; [|exact HD]. constructor; [exact Es'|]. repeat constructor.
      + assert (Es : size 1 t = D) by (unfold size; rewrite Wm; reflexivity). rewrite Es in E1.
        destruct (svd_flex _ _ _ _ _ _ _) as [[[[A B] d] sv]|] eqn:Es'; cbn [rbind] in E1; [|discriminate E1]. injection E1 as <- <- <-.
        apply svd_flex_rank in Es'; [|exact HD]. constructor; [exact Es'|]. repeat constructor.
  Qed.
  Lemma unmerge_mods_rank D F O c l ms bonds svs : 0 < D -> Forall (wf K D F O) l -> unmerge_mods svd c l = Ok (ms, bonds, svs) -> Forall (rank_ok D) bonds.
  Proof.
    intros HD W. unfold unmerge_mods. intros E. destruct (unmerge_each svd c l) as [[[ms1 b1] s1]|] eqn:E1; cbn [rbind] in E; [|discriminate E].
    destruct (sweeps _ _ _ _) as [c1|]; cbn [rbind] in E; [|discriminate E]. destruct (equalize c1) as [e|]; cbn [rbind] in E; [|discriminate E].
    injection E as <- <- <-. constructor; [exact Logic.I|]. eapply unmerge_each_rank; eassumption.
  Qed.

  (** *** storing keeps the kind and shape of every parameter *)
  Lemma store_retrained old new r : Forall (no_region K) old -> store K old new = Ok r -> Forall2 retrained old r.
  Proof.
    intros NR. unfold store. intros E. destruct (Nat.eqb_spec (List.length old) (List.length new)) as [El|]; cbn [assert_ rbind] in E; [|discriminate E].
    revert new r El E. induction NR as [|a old Na NR IH]; intros new r El E; destruct new as [|b new]; cbn [List.length] in El; try discriminate El.
    - injection E as <-. constructor.
    - cbn [store_each] in E. destruct (list_eqb _ _) eqn:Es; cbn [assert_ rbind] in E; [|discriminate E]. apply list_eqb_eq in Es.
      destruct (store_each K old new) as [r'|] eqn:Er; cbn [rbind] in E; [|discriminate E]. injection E as <-.
      constructor; [|eapply IH; [injection El as El; exact El|exact Er]].
      destruct a; cbn [set_tensor mod_tensor] in *; [destruct Na|constructor; exact Es..].
  Qed.
  Lemma retrained_refl l : Forall (no_region K) l -> Forall2 retrained l l.
  Proof. induction 1 as [|m l Hm H IH]; constructor; [|exact IH]. destruct m; [destruct Hm|constructor; reflexivity..]. Qed.
  Lemma retrained_trans a b c : Forall2 retrained a b -> Forall2 retrained b c -> Forall2 retrained a c.
  Proof.
    intros H. revert c. induction H as [|x y a b Hx H IH]; intros c H'; inversion H' as [|? z ? c' Hz Hc]; subst; constructor; [|apply IH; exact Hc].
    inversion Hx; subst; inversion Hz; subst; constructor; congruence.
  Qed.
  Lemma retrained_merged D F O o p q l l' : merged_list D F O o p q l -> Forall2 retrained l l' -> merged_list D F O o p q l'.
  Proof.
    intros [W Hk] H. split.
    - clear Hk. induction H as [|m m' l l' Hm H IH]; [constructor|]. inversion W as [|? ? Wm Wl]; subst. constructor; [|apply IH; exact Wl].
      unfold wf in *. inversion Hm as [? ? Es|? ? Es|? ? Es|? ? ? Es]; subst; cbn [wf_mod] in *; rewrite <- Es; exact Wm.
    - rewrite <- Hk. clear Hk W. induction H as [|m m' l l' Hm H IH]; [reflexivity|]. cbn [AdMerge.kinds map]. f_equal; [|exact IH].
      inversion Hm as [? ? Es|? ? Es|? ? Es|? ? ? Es]; subst; cbn [AdMerge.kind_of]; try reflexivity. unfold size. rewrite Es. reflexivity.
  Qed.

  (** *** the lists of the model *)
  Lemma update_ok m new svs b s : update_lists m new svs = Ok (b, s) ->
    List.length new = List.length (a_bonds m) /\ List.length new = List.length svs /\ update_each (m_bond (a_cfg m)) new svs (a_bonds m) (a_svs m) = Ok (b, s).
  Proof.
    unfold update_lists. intros E. destruct (Nat.eqb_spec (List.length new) (List.length (a_bonds m))); cbn [assert_ rbind] in E; [|discriminate E].
    destruct (Nat.eqb_spec (List.length new) (List.length svs)); cbn [assert_ rbind] in E; [|discriminate E]. auto.
  Qed.
  Lemma update_each_keeps D new : forall svs ob os b s, update_each D new svs ob os = Ok (b, s) ->
    List.length new = List.length svs -> List.length new = List.length ob -> List.length new = List.length os ->
    Forall (rank_ok D) new -> Forall (fun d => 1 <= d <= D) ob -> Forall (fun v => shp v = [D]) os ->
    List.length b = List.length ob /\ List.length s = List.length os /\ Forall (fun d => 1 <= d <= D) b /\ Forall (fun v => shp v = [D]) s.
  Proof.
    induction new as [|n new IH]; intros svs ob os b s E L1 L2 L3 Hn Ho Hs.
    - destruct svs; [|discriminate L1]. destruct ob; [|discriminate L2]. destruct os; [|discriminate L3]. injection E as <- <-. repeat split; constructor.
    - destruct svs as [|w svs]; [discriminate L1|]. destruct ob as [|b0 ob]; [discriminate L2|]. destruct os as [|v os]; [discriminate L3|].
      inversion Hn; subst. inversion Ho; subst. inversion Hs; subst. cbn [update_each] in E.
      destruct (match n, w with None, _ => _ | Some _, None => _ | Some _, Some _ => _ end) as [p|] eqn:Ep; cbn [rbind] in E; [|discriminate E].
      destruct (update_each D new svs ob os) as [q|] eqn:Eq; cbn [rbind] in E; [|discriminate E]. injection E as <- <-. destruct q as [b' s'].
      destruct (IH _ _ _ _ _ Eq) as (A & B & C & G); try assumption; try (cbn [List.length] in *; lia). cbn [fst snd List.length].
      split; [lia|]. split; [lia|]. destruct n as [d|].
      + destruct w as [w|]; [|discriminate Ep]. destruct (list_eqb (shp w) [D]) eqn:Ew; [|discriminate Ep]. injection Ep as <-. apply list_eqb_eq in Ew. cbn [fst snd]. split; constructor; assumption.
      + injection Ep as <-. cbn [fst snd]. split; constructor; assumption.
  Qed.

  Lemma stale_rescaled c l : Forall2 rescaled l (stale svd c l).
  Proof.
    unfold stale. destruct (let* p := unmerge_each svd c l in _) as [u|].
    2: { induction l as [|m l IH]; constructor; [left; reflexivity|exact IH]. }
    cbv zeta. generalize (fold_right Rplus 0%R (map ln (flat_map get_norm u)) / INR (List.length (flat_map get_norm u)))%R. intros ls.
    generalize (List.length l) at 1. intros n. generalize 0. induction l as [|m l IH]; intros k; [constructor|]. cbn [List.length seq combine map]. constructor; [|apply IH].
    destruct (shared n u k m) eqn:Es; [|left; reflexivity]. right. destruct m as [t ub b|t|t|t|t lo]; cbn [shared] in Es; try discriminate Es; cbn [mod_tensor set_tensor].
    - eexists t, _, _. split; [right; split; reflexivity|]. split; [apply exp_pos|]. split; [reflexivity|]. intros i. cbn [get]. reflexivity.
    - eexists t, _, _. split; [left; split; reflexivity|]. split; [apply exp_pos|]. split; [reflexivity|]. intros i. cbn [get]. reflexivity.
  Qed.
  Lemma rescaled_retrained l l' : Forall (no_region K) l -> Forall2 rescaled l l' -> Forall2 retrained l l'.
  Proof.
    intros H E. induction E as [|m m' l l' Em E IH]; [constructor|]. inversion H; subst. constructor; [|apply IH; assumption].
    destruct Em as [<-|(t & t' & c & [[-> ->]|[-> ->]] & _ & Hs & _)]; [destruct m; [contradiction|constructor; reflexivity..]|constructor; symmetry; exact Hs..].
  Qed.

  (** *** one step of the region *)
  Lemma step_keeps D F O p q g B g' info : 0 < D -> 1 < p + q -> good_region D F O p q g -> region_step svd g B = Ok (g', info) ->
    good_region D F O p q g' /\ g_threshold g' = g_threshold g /\ g_cutoff g' = g_cutoff g /\
    Forall2 retrained (g_list0 g) (g_list0 g') /\ Forall2 retrained (g_list1 g) (g_list1 g') /\
    if (g_threshold g <=? g_counter g)%Z then
      g_offset g' = (g_offset g + 1) mod 2 /\ g_counter g' = (g_counter g - g_threshold g + Z.of_nat B)%Z /\ g_list g' (g_offset g) = stale svd (g_cutoff g) (g_active g) /\
      exists bonds svs, info = Some (bonds, svs) /\ Forall (rank_ok D) bonds
    else g_offset g' = g_offset g /\ g_counter g' = (g_counter g + Z.of_nat B)%Z /\ g_list0 g' = g_list0 g /\ g_list1 g' = g_list1 g /\ info = None.
  Proof.
    intros HD Hn Hg E. pose proof (gr_off _ _ _ _ _ _ Hg) as Ho. unfold region_step in E.
    assert (NR : forall o, o < 2 -> Forall (no_region K) (g_list g o)).
    { intros o Ho'. eapply Forall_impl; [|apply (merged_no_region D F O o p q _ Ho' Hn (gr_list D F O p q g o Hg Ho'))]. intros m Hm. destruct m; exact Hm. }
    pose proof (NR 0 ltac:(lia)) as N0. pose proof (NR 1 ltac:(lia)) as N1. change (g_list g 0) with (g_list0 g) in N0. change (g_list g 1) with (g_list1 g) in N1.
    destruct (g_threshold g <=? g_counter g)%Z.
    - destruct (unmerge_mods svd (g_cutoff g) (g_active g)) as [[[ms bonds] svs]|] eqn:Eu; cbn [rbind] in E; [|discriminate E].
      set (o' := (g_offset g + 1) mod 2) in *. assert (Ho' : o' < 2) by (apply Nat.mod_upper_bound; lia). cbv zeta in E.
      destruct (merge_mods K o' ms) as [new|]; cbn [rbind] in E; [|discriminate E].
      destruct (store K (g_list g o') new) as [new'|] eqn:Es; cbn [rbind] in E; [|discriminate E].
      apply store_retrained in Es; [|apply NR; exact Ho'].
      pose proof (retrained_merged D F O o' p q _ _ (gr_list D F O p q g o' Hg Ho') Es) as Hm.
      pose proof (unmerge_mods_rank D F O _ _ _ _ _ HD (proj1 (gr_active D F O p q g Hg)) Eu) as Hr.
      assert (Eo : o' = 0 /\ g_offset g = 1 \/ o' = 1 /\ g_offset g = 0).
      { unfold o'. destruct (g_offset g) as [|[|o]]; [right|left|lia]; split; reflexivity. }
      assert (Rs : Forall2 retrained (g_active g) (stale svd (g_cutoff g) (g_active g))) by (apply rescaled_retrained; [apply NR; exact Ho|apply stale_rescaled]).
      pose proof (retrained_merged D F O _ p q _ _ (gr_active D F O p q g Hg) Rs) as Hm'.
      injection E as <- <-. unfold g_active, g_list in Rs, Hm'. unfold g_active, g_list. destruct Eo as [[Eo Eg]|[Eo Eg]]; rewrite Eo, Eg in *; cbn [Nat.eqb g_list0 g_list1 g_offset g_counter g_threshold g_cutoff] in *.
      + split; [constructor; cbn [g_offset g_list0 g_list1]; [lia|exact Hm|exact Hm']|]. split; [reflexivity|]. split; [reflexivity|]. split; [exact Es|]. split; [exact Rs|].
        split; [reflexivity|]. split; [reflexivity|]. split; [reflexivity|]. eauto.
      + split; [constructor; cbn [g_offset g_list0 g_list1]; [lia|exact Hm'|exact Hm]|]. split; [reflexivity|]. split; [reflexivity|]. split; [exact Rs|]. split; [exact Es|].
        split; [reflexivity|]. split; [reflexivity|]. split; [reflexivity|]. eauto.
    - injection E as <- <-. cbn [g_list0 g_list1 g_offset g_counter g_threshold g_cutoff]. split; [constructor; apply Hg|]. split; [reflexivity|]. split; [reflexivity|].
      split; [apply retrained_refl; exact N0|]. split; [apply retrained_refl; exact N1|]. repeat split.
  Qed.
  Lemma given_shape N O D F p m x e : inv N O D F p m -> embedded_input m x = Ok e -> exists B, shp e = [B; N; F] /\ size 0 e = B.
  Proof.
    intros Hi. unfold embedded_input. destruct (route _ _ _) as [x1|]; cbn [rbind]; [|discriminate]. intros E. destruct (embed_shape _ _ _ E) as (B & HB).
    exists B. rewrite (i_in _ _ _ _ _ _ Hi), (i_feat _ _ _ _ _ _ Hi) in HB. split; [exact HB|]. unfold size. rewrite HB. reflexivity.
  Qed.
  Lemma call_facts N O D F p m x g r m' : 0 < D -> 1 < N -> inv N O D F p m -> ad_forward svd m x g = (r, Some m') ->
    inv N O D F p m' /\ a_cfg m' = a_cfg m /\ g_threshold (a_reg m') = g_threshold (a_reg m) /\ g_cutoff (a_reg m') = g_cutoff (a_reg m) /\
    Forall2 retrained (g_list0 (a_reg m)) (g_list0 (a_reg m')) /\ Forall2 retrained (g_list1 (a_reg m)) (g_list1 (a_reg m')) /\
    match embedded_input m x with
    | Err _ => m' = m
    | Ok e =>
        if (g_threshold (a_reg m) <=? g_counter (a_reg m))%Z then
          g_offset (a_reg m') = (g_offset (a_reg m) + 1) mod 2 /\ g_counter (a_reg m') = (g_counter (a_reg m) - g_threshold (a_reg m) + Z.of_nat (size 0 e))%Z /\
          g_list (a_reg m') (g_offset (a_reg m)) = stale svd (g_cutoff (a_reg m)) (g_active (a_reg m))
        else
          g_offset (a_reg m') = g_offset (a_reg m) /\ g_counter (a_reg m') = (g_counter (a_reg m) + Z.of_nat (size 0 e))%Z /\
          g_list0 (a_reg m') = g_list0 (a_reg m) /\ g_list1 (a_reg m') = g_list1 (a_reg m) /\ a_bonds m' = a_bonds m /\ a_svs m' = a_svs m
    end.
  Proof.
    intros HD HN Hi E. assert (Hpq : 1 < p + (N - p)) by (pose proof (i_le _ _ _ _ _ _ Hi); lia).
    assert (NR : forall o, o < 2 -> Forall (no_region K) (g_list (a_reg m) o)).
    { intros o Ho'. eapply Forall_impl; [|apply (merged_no_region D F O o p (N - p) _ Ho' Hpq (gr_list D F O p (N - p) _ o (i_reg _ _ _ _ _ _ Hi) Ho'))]. intros x0 Hm. destruct x0; exact Hm. }
    pose proof (NR 0 ltac:(lia)) as N0. pose proof (NR 1 ltac:(lia)) as N1. change (g_list (a_reg m) 0) with (g_list0 (a_reg m)) in N0. change (g_list (a_reg m) 1) with (g_list1 (a_reg m)) in N1.
    unfold ad_forward in E. fold (embedded_input m x) in E. destruct (embedded_input m x) as [e|e] eqn:Eg.
    2: { injection E as <- <-. split; [exact Hi|]. do 3 (split; [reflexivity|]). split; [apply retrained_refl; exact N0|]. split; [apply retrained_refl; exact N1|reflexivity]. }
    destruct (region_step svd (a_reg m) (size 0 e)) as [[reg info]|] eqn:Es; [|discriminate E].
    destruct (step_keeps D F O p (N - p) _ _ _ _ HD Hpq (i_reg _ _ _ _ _ _ Hi) Es) as (Gr & Ht & Hc & R0 & R1 & Sc).
    assert (I0 : inv N O D F p (with_reg m reg)) by (destruct Hi; constructor; assumption).
    assert (Base : a_cfg (with_reg m reg) = a_cfg m /\ g_threshold reg = g_threshold (a_reg m) /\ g_cutoff reg = g_cutoff (a_reg m) /\ Forall2 retrained (g_list0 (a_reg m)) (g_list0 reg) /\ Forall2 retrained (g_list1 (a_reg m)) (g_list1 reg)) by auto.
    destruct (region_forward K (g_active reg) _ _ e g) as [[y|e'] g'] eqn:Ef.
    - destruct info as [[bonds svs]|].
      + destruct (update_lists m bonds svs) as [[b s]|] eqn:Eu; [|discriminate E]. injection E as <- <-. cbn [a_cfg a_reg].
        destruct (update_ok m bonds svs b s Eu) as (L1 & L2 & Ue).
        destruct (g_threshold (a_reg m) <=? g_counter (a_reg m))%Z; [|destruct Sc as (_ & _ & _ & _ & X); discriminate X].
        destruct Sc as (S1 & S2 & S3 & b' & s' & Ei & Hr). injection Ei as <- <-.
        destruct (i_bonds _ _ _ _ _ _ Hi) as [Lb Fb]. destruct (i_svs _ _ _ _ _ _ Hi) as [Ls Fs]. rewrite (i_bond _ _ _ _ _ _ Hi) in Ue.
        destruct (update_each_keeps D _ _ _ _ _ _ Ue) as (A & B & C & G); try assumption; try lia.
        split; [destruct Hi; constructor; cbn [a_cfg a_reg a_bonds a_svs]; try assumption; split; try assumption; lia|].
        split; [reflexivity|]. split; [exact Ht|]. split; [exact Hc|]. split; [exact R0|]. split; [exact R1|]. auto.
      + injection E as <- <-. split; [exact I0|]. split; [reflexivity|]. split; [exact Ht|]. split; [exact Hc|]. split; [exact R0|]. split; [exact R1|].
        destruct (g_threshold (a_reg m) <=? g_counter (a_reg m))%Z; [destruct Sc as (_ & _ & _ & ? & ? & X & _); discriminate X|]. cbn [with_reg a_reg a_bonds a_svs]. intuition.
    - injection E as <- <-. split; [exact I0|]. split; [reflexivity|]. split; [exact Ht|]. split; [exact Hc|]. split; [exact R0|]. split; [exact R1|].
      destruct (g_threshold (a_reg m) <=? g_counter (a_reg m))%Z; cbn [with_reg a_reg a_bonds a_svs]; [|intuition]. destruct Sc as (? & ? & ? & _). auto.
  Qed.
  Lemma event_keeps N O D F p m m' : 0 < D -> 1 < N -> inv N O D F p m -> event svd m m' ->
    inv N O D F p m' /\ g_threshold (a_reg m') = g_threshold (a_reg m) /\ g_cutoff (a_reg m') = g_cutoff (a_reg m) /\
    m_periodic (a_cfg m') = m_periodic (a_cfg m) /\ m_parallel (a_cfg m') = m_parallel (a_cfg m) /\ m_path (a_cfg m') = m_path (a_cfg m) /\
    Forall2 retrained (g_list0 (a_reg m)) (g_list0 (a_reg m')) /\ Forall2 retrained (g_list1 (a_reg m)) (g_list1 (a_reg m')).
  Proof.
    intros HD HN Hi Ev. destruct Ev as [m l0 l1 H0 H1|m x g r m' E|m f m' E].
    - split; [|cbn; auto 10]. destruct Hi as [A1 A2 A3 A4 A5 A6 A7 A8 A9]. constructor; cbn [a_cfg a_reg a_bonds a_svs]; try assumption.
      destruct A7 as [B0 B1 B2]. constructor; cbn [g_offset g_list0 g_list1]; [exact B0|eapply retrained_merged; eassumption|eapply retrained_merged; eassumption].
    - destruct (call_facts N O D F p m x g r m' HD HN Hi E) as (A & B & C & G & R0 & R1 & _). rewrite B. auto 10.
    - assert (Hpq : 1 < p + (N - p)) by (pose proof (i_le _ _ _ _ _ _ Hi); lia).
      assert (NR : forall o, o < 2 -> Forall (no_region K) (g_list (a_reg m) o)).
      { intros o Ho'. eapply Forall_impl; [|apply (merged_no_region D F O o p (N - p) _ Ho' Hpq (gr_list D F O p (N - p) _ o (i_reg _ _ _ _ _ _ Hi) Ho'))]. intros x0 Hm. destruct x0; exact Hm. }
      unfold ad_register in E. destruct (mps_register K (a_cfg m) f) as [c|] eqn:Ec; cbn [rbind] in E; [|discriminate E]. injection E as <-.
      unfold mps_register in Ec. destruct (match f with Some g => _ | None => _ end) as [[]|]; cbn [rbind] in Ec; [|discriminate Ec]. injection Ec as <-.
      split; [destruct Hi; constructor; assumption|]. cbn. do 5 (split; [reflexivity|]). split; apply retrained_refl; [apply (NR 0); lia|apply (NR 1); lia].
  Qed.
  Lemma after_keeps N O D F p m0 m : 0 < D -> 1 < N -> inv N O D F p m0 -> after svd m0 m ->
    inv N O D F p m /\ g_threshold (a_reg m) = g_threshold (a_reg m0) /\ g_cutoff (a_reg m) = g_cutoff (a_reg m0) /\
    m_periodic (a_cfg m) = m_periodic (a_cfg m0) /\ m_parallel (a_cfg m) = m_parallel (a_cfg m0) /\ m_path (a_cfg m) = m_path (a_cfg m0) /\
    Forall2 retrained (g_list0 (a_reg m0)) (g_list0 (a_reg m)) /\ Forall2 retrained (g_list1 (a_reg m0)) (g_list1 (a_reg m)).
  Proof.
    intros HD HN Hi H. assert (Hpq : 1 < p + (N - p)) by (pose proof (i_le _ _ _ _ _ _ Hi); lia).
    induction H as [|m m' Ha IH Ev].
    - assert (NR : forall o, o < 2 -> Forall (no_region K) (g_list (a_reg m0) o)).
      { intros o Ho'. eapply Forall_impl; [|apply (merged_no_region D F O o p (N - p) _ Ho' Hpq (gr_list D F O p (N - p) _ o (i_reg _ _ _ _ _ _ Hi) Ho'))]. intros x0 Hm. destruct x0; exact Hm. }
      split; [exact Hi|]. do 5 (split; [reflexivity|]). split; apply retrained_refl; [apply (NR 0); lia|apply (NR 1); lia].
    - destruct IH as (A1 & A2 & A3 & A4 & A5 & A6 & A7 & A8). destruct (event_keeps N O D F p m m' HD HN A1 Ev) as (B1 & B2 & B3 & B4 & B5 & B6 & B7 & B8).
      split; [exact B1|]. do 5 (split; [congruence|]). split; eapply retrained_trans; eassumption.
  Qed.
End Call.
