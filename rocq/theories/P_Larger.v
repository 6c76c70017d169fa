(** * P_Larger: C114, a larger bond dimension loses nothing. *)
From Coq Require Import Ring_theory Ring Reals Lra Classical_Prop.
From Verif Require Import Base Scalars Tensor Utils2 MpsBase ProbMps Spec ModelSpec LinAlg ProbProofs EmbProofs P_Prob P_ZeroExact Contractables Utils TorchMps TmSpec TmProofs TmFinal P_Mps P_Mps2 P_Mps3 P_Mps4 P_TiMps P_MpsCap.
Open Scope nat_scope.

(** ** A block of a larger matrix *)
Section Block.
  Variable K : cring.
  Add Ring KrLa : (rth K).
  (** the first D rows of M' are those of M, followed by zeros *)
  Definition block (D D' : nat) (M M' : mat K) : Prop := forall i j, i < D -> j < D' -> M' i j = if j <? D then M i j else s0.
  Lemma bsum_cut a b (f : nat -> K) : a <= b -> bsum b (fun p => if p <? a then f p else s0) = bsum a f.
  Proof.
    intros H. replace b with (a + (b - a)) by lia. rewrite (bsum_split K).
    rewrite (bsum_ext a _ f) by (intros p Hp; replace (p <? a) with true by (symmetry; apply Nat.ltb_lt; exact Hp); reflexivity).
    rewrite (bsum_zero K (b - a)); [ring|]. intros p Hp. replace (a + p <? a) with false by (symmetry; apply Nat.ltb_ge; lia). reflexivity.
  Qed.
  Lemma block_chain D D' l l' : D <= D' ->
    Forall2 (fun p q : nat * mat K => fst p = D /\ fst q = D' /\ block D D' (snd p) (snd q)) l l' -> block D D' (chain l) (chain l').
  Proof.
    intros HD H. induction H as [|[n M] [n' M'] l l' (E1 & E2 & HM) H IH]; intros i j Hi Hj.
    - cbn [chain]. unfold delta. destruct (Nat.ltb_spec j D); [reflexivity|]. replace (i =? j) with false by (symmetry; apply Nat.eqb_neq; lia). reflexivity.
    - cbn [fst snd] in E1, E2, HM. subst n n'. rewrite !(chain_cons K). unfold mmul.
      rewrite (bsum_ext D' _ (fun k => if k <? D then smul (M i k) (chain l' k j) else s0)).
      + rewrite bsum_cut by exact HD. destruct (j <? D) eqn:Ej.
        * apply bsum_ext. intros k Hk. rewrite (IH k j Hk Hj), Ej. reflexivity.
        * apply (bsum_zero K). intros k Hk. rewrite (IH k j Hk Hj), Ej. ring.
      + intros k Hk. rewrite (HM i k Hi Hk). destruct (k <? D); [reflexivity|ring].
  Qed.
  Definition pad_vec (D : nat) (v : vec K) : vec K := fun i => if i <? D then v i else s0.
  Lemma block_sandwich D D' (v w v' w' : vec K) M M' : D <= D' -> block D D' M M' ->
    (forall i, i < D' -> v' i = pad_vec D v i) -> (forall i, i < D' -> w' i = pad_vec D w i) -> sandwich D' D' v' M' w' = sandwich D D v M w.
  Proof.
    intros HD HM Hv Hw. unfold sandwich.
    rewrite (bsum_ext D' _ (fun i => if i <? D then bsum D (fun j => smul (v i) (smul (M i j) (w j))) else s0)); [apply bsum_cut; exact HD|].
    intros i Hi. rewrite (Hv i Hi). unfold pad_vec. destruct (Nat.ltb_spec i D) as [Hi'|Hi'].
    - rewrite (bsum_ext D' _ (fun j => if j <? D then smul (v i) (smul (M i j) (w j)) else s0)); [apply bsum_cut; exact HD|].
      intros j Hj. rewrite (Hw j Hj), (HM i j Hi' Hj). unfold pad_vec. destruct (j <? D); ring.
    - apply (bsum_zero K). intros j Hj. ring.
  Qed.
End Block.

(** ** MPS *)
Section Larger.
  Variable K : cring.
  Add Ring KrLa2 : (rth K).
  Definition inside (D l r : nat) (a : K) : K := if (l <? D) && (r <? D) then a else s0.
  Definition pad_mod (D D' : nat) (m : module K) : module K :=
    match m with
    | InputRegion t ub b => InputRegion (mkT [size 0 t; D'; D'; size 3 t] (fun i => match i with [s; l; r; f] => inside D l r (get t [s; l; r; f]) | _ => s0 end)) ub
        (option_map (fun b => mkT [1; D'; D'] (fun i => match i with [z; l; r] => inside D l r (get b [z; l; r]) | _ => s0 end)) b)
    | OutputSite t => OutputSite (mkT [size 0 t; D'; D'] (fun i => match i with [o; l; r] => inside D l r (get t [o; l; r]) | _ => s0 end))
    | m => m
    end.
  (** regions built without bias have none *)
  Definition no_spare_bias (m : module K) : Prop := match m with InputRegion _ false (Some _) => False | _ => True end.
  Lemma init_no_spare N O D F per par label path std ub rnd m0 m : mps_init K N O D F per par label path std ub rnd = Ok m0 -> trained m0 m -> Forall no_spare_bias (m_modules m).
  Proof.
    unfold mps_init, label_of. set (l := match label with None => _ | Some z => z end). intros E.
    destruct ((0 <=? l)%Z && (l <=? Z.of_nat N)%Z) eqn:El; cbn [assert_ rbind] in E; [|discriminate].
    destruct (build_modules K false N O D F (Z.to_nat l) std ub rnd) as [mods|] eqn:Eb; cbn [rbind] in E; [|discriminate].
    destruct (region_len K mods =? N); cbn [assert_ rbind] in E; [|discriminate].
    destruct (check_path N path) as [[]|]; cbn [rbind] in E; [|discriminate]. injection E as <-.
    intros [Ht _]. cbn [m_modules] in Ht.
    assert (H0 : Forall no_spare_bias mods).
    { assert (R : forall k n q, build_region K false O D F std ub rnd k n = Ok q -> Forall no_spare_bias q).
      { clear Eb. intros k n q. unfold build_region. destruct (0 <? n); [|intros E; injection E as <-; constructor].
        destruct (init_tensor K s0 _ _ _ _) as [t|] eqn:Et; cbn [rbind]; [|discriminate].
        destruct (input_region K t ub None) as [mo|] eqn:Em; cbn [rbind]; [|discriminate]. intros E. injection E as <-.
        apply init_tensor_shape in Et; [|reflexivity]. apply (input_region_form K _ _ _ _ _ _ Et) in Em. subst mo. constructor; [|constructor]. destruct ub; exact Logic.I. }
      unfold build_modules in Eb. set (region := build_region K false O D F std ub rnd) in Eb, R.
      destruct (region 0 (Z.to_nat l)) as [q|] eqn:E1; cbn [rbind] in Eb; [|discriminate].
      destruct (init_tensor K s0 _ _ _ _) as [t|] eqn:Et; cbn [rbind] in Eb; [|discriminate].
      destruct (region 2 (N - Z.to_nat l)) as [r|] eqn:E2; cbn [rbind] in Eb; [|discriminate]. injection Eb as <-.
      apply Forall_app. split; [eapply R; exact E1|]. constructor; [exact Logic.I|eapply R; exact E2]. }
    clear - H0 Ht. revert H0. induction Ht as [|a b la lb Hab Ht IH]; intros H0; [constructor|]. inversion H0 as [|? ? Ha Hl]; subst. constructor; [|apply IH, Hl].
    destruct Hab as [t t' ub b b' _ _|t t' ub _|t t' _]; try exact Logic.I; [|destruct ub; exact Logic.I]. destruct ub; [exact Logic.I|exact Ha].
  Qed.
  Lemma pad_region n D D' F ub l0 l : Forall no_spare_bias l0 -> Forall no_spare_bias l -> region_list K n D' F ub l0 -> region_list K n D F ub l -> Forall2 mod_trained l0 (map (pad_mod D D') l).
  Proof.
    destruct n as [|n]; cbn [region_list]; [intros _ _ -> ->; constructor|].
    intros H0 H1 (m0 & -> & t0 & b0 & -> & Hs0 & Hb0) (m & -> & t & b & -> & Hs & Hb). constructor; [|constructor]. cbn [pad_mod].
    inversion H0 as [|? ? A0 _]; subst. inversion H1 as [|? ? A1 _]; subst. cbn [no_spare_bias] in A0, A1.
    assert (Es : shp t0 = [size 0 t; D'; D'; size 3 t]) by (rewrite Hs0; unfold size; rewrite Hs; reflexivity).
    destruct ub.
    - destruct (Hb0 eq_refl) as (b0' & -> & Eb0). destruct (Hb eq_refl) as (b' & -> & Eb). constructor; [exact Es|exact Eb0].
    - destruct b0; [contradiction|]. destruct b; [contradiction|]. constructor. exact Es.
  Qed.
  Lemma form_nonempty N O D F lab ub mods : mps_form K N O D F lab ub mods -> 0 < List.length mods /\ (0 < lab -> 1 < List.length mods).
  Proof.
    intros (l & t & r & -> & Hl & _ & _). rewrite !app_length. cbn [List.length]. split; [lia|]. intros H. destruct lab as [|n]; [lia|]. destruct Hl as (m & -> & _). cbn [List.length]. lia.
  Qed.
  Lemma pad_bias D D' m i j : mod_bias (pad_mod D D' m) i j = inside D i j (mod_bias m i j).
  Proof.
    destruct m as [t ub b|t|t|t|t lo]; cbn [pad_mod mod_bias]; try (unfold inside, no_bias; destruct (_ && _); reflexivity).
    destruct ub, b as [b|]; cbn [option_map]; try (unfold inside, no_bias; destruct (_ && _); reflexivity). reflexivity.
  Qed.
  Lemma inside_0 D l r : inside D l r s0 = s0. Proof. unfold inside. destruct (_ && _); reflexivity. Qed.
  Lemma value_larger (per : bool) N lab D D' F (w w' : weights K) x o : lab <= N -> 0 < D -> D <= D' ->
    (forall s l r i, s < N -> l < D' -> r < D' -> w_core w' s l r i = inside D l r (w_core w s l r i)) ->
    (forall s l r, s < N -> l < D' -> r < D' -> w_bias w' s l r = inside D l r (w_bias w s l r)) ->
    (forall l r, l < D' -> r < D' -> w_out w' o l r = inside D l r (w_out w o l r)) ->
    value K per N lab D' F w' x o = value K per N lab D F w x o.
  Proof.
    intros Hle HD HDD Hc Hb Ho.
    assert (Hs : forall s l r, s < N -> l < D' -> r < D' -> site_matrix F (w_core w' s) (w_bias w' s) (x s) l r = inside D l r (site_matrix F (w_core w s) (w_bias w s) (x s) l r)).
    { intros s l r Hs Hl Hr. unfold site_matrix. rewrite (Hb s l r Hs Hl Hr).
      rewrite (bsum_ext F _ (fun i => smul (x s i) (inside D l r (w_core w s l r i)))) by (intros i Hi; rewrite (Hc s l r i Hs Hl Hr); reflexivity).
      unfold inside. destruct (_ && _); [reflexivity|]. rewrite (bsum_zero K); [ring|]. intros; ring. }
    set (ok := fun p q : nat * mat K => fst p = D /\ fst q = D' /\ forall i j, i < D' -> j < D' -> snd q i j = inside D i j (snd p i j)).
    assert (HF : Forall2 ok (factors N lab D F w x o) (factors N lab D' F w' x o)).
    { unfold factors. assert (G : forall js, (forall s, In s js -> s < N) ->
        Forall2 ok (map (fun s => (D, site_matrix F (w_core w s) (w_bias w s) (x s))) js) (map (fun s => (D', site_matrix F (w_core w' s) (w_bias w' s) (x s))) js)).
      { induction js as [|s js IH]; intros H; [constructor|]. constructor; [|apply IH; intros; apply H; right; assumption].
        split; [reflexivity|]. split; [reflexivity|]. intros i j Hi Hj. cbn [snd]. apply Hs; [apply H; left; reflexivity|exact Hi|exact Hj]. }
      apply Forall2_app; [apply G; intros s H; apply in_seq in H; lia|]. apply Forall2_app; [|apply G; intros s H; apply in_seq in H; lia].
      constructor; [|constructor]. split; [reflexivity|]. split; [reflexivity|]. intros i j Hi Hj. cbn [snd]. apply Ho; assumption. }
    assert (HB : block K D D' (chain (factors N lab D F w x o)) (chain (factors N lab D' F w' x o))).
    { apply (block_chain K D D' _ _ HDD). clear - HF HDD. induction HF as [|p q l l' (E1 & E2 & H) HF IH]; constructor; [|exact IH].
      split; [exact E1|]. split; [exact E2|]. intros i j Hi Hj. rewrite H by lia. unfold inside. replace (i <? D) with true by (symmetry; apply Nat.ltb_lt; exact Hi). reflexivity. }
    unfold value, ring_value, train_value. destruct per.
    - unfold mtrace. rewrite <- (bsum_cut K D D' _ HDD). apply bsum_ext. intros k Hk. destruct (Nat.ltb_spec k D) as [Hk'|Hk'].
      + rewrite (HB k k Hk' Hk). replace (k <? D) with true by (symmetry; apply Nat.ltb_lt; exact Hk'). reflexivity.
      + assert (Hz : forall l l', Forall2 ok l l' -> l <> [] -> chain l' k k = s0).
        { clear - Hk Hk' K. intros l l' H Hne. destruct H as [|p q l l' (E1 & E2 & H) HF]; [contradiction|]. destruct q as [n M]. cbn [fst snd] in *. subst n.
          rewrite (chain_cons K). apply (bsum_zero K). intros j Hj. rewrite (H k j Hk Hj). unfold inside. replace (k <? D) with false by (symmetry; apply Nat.ltb_ge; exact Hk'). cbn [andb]. ring. }
        apply (Hz _ _ HF). unfold factors. intros E. apply app_eq_nil in E as [_ E]. discriminate E.
    - rewrite (HB 0 0 HD ltac:(lia)). replace (0 <? D) with true by (symmetry; apply Nat.ltb_lt; exact HD). reflexivity.
  Qed.
  Lemma weights_pad N O D D' F lab ub m m' : lab <= N -> m_label m = lab -> mps_form K N O D F lab ub (m_modules m) -> m_label m' = lab -> m_modules m' = map (pad_mod D D') (m_modules m) ->
    (forall s l r i, s < N -> w_core (weights_of m') s l r i = inside D l r (w_core (weights_of m) s l r i)) /\
    (forall s l r, s < N -> w_bias (weights_of m') s l r = inside D l r (w_bias (weights_of m) s l r)) /\
    (forall o l r, w_out (weights_of m') o l r = inside D l r (w_out (weights_of m) o l r)).
  Proof.
    intros Hle El Hf El' Em'. destruct (form_nonempty _ _ _ _ _ _ _ Hf) as [L0 L1].
    assert (En : forall k, k < List.length (m_modules m) -> nth k (m_modules m') (OutputSite (no_tensor K)) = pad_mod D D' (nth k (m_modules m) (OutputSite (no_tensor K)))).
    { intros k Hk. rewrite Em'. rewrite (nth_indep _ (OutputSite (no_tensor K)) (pad_mod D D' (OutputSite (no_tensor K)))) by (rewrite map_length; exact Hk). apply map_nth. }
    assert (Elast : last (m_modules m') (OutputSite (no_tensor K)) = pad_mod D D' (last (m_modules m) (OutputSite (no_tensor K)))).
    { rewrite Em'. clear - L0. induction (m_modules m) as [|a l IH]; [cbn in L0; lia|]. destruct l as [|b l]; [reflexivity|]. cbn [map last] in IH |- *. apply IH. cbn. lia. }
    unfold weights_of, first_mod, last_mod, out_mod. cbn [w_core w_bias w_out]. rewrite El, El', Elast.
    destruct Hf as (l & t & r & Em & Hl & Ht & Hr).
    assert (Hfirst : 0 < lab -> exists mo, nth 0 (m_modules m) (OutputSite (no_tensor K)) = mo /\ region_shape K lab D F ub mo).
    { intros H. destruct lab as [|n]; [lia|]. destruct Hl as (mo & -> & Hmo). rewrite Em. eauto. }
    assert (Hlast : 0 < N - lab -> exists mo, last (m_modules m) (OutputSite (no_tensor K)) = mo /\ region_shape K (N - lab) D F ub mo).
    { intros H. destruct (N - lab) as [|n]; [lia|]. destruct Hr as (mo & -> & Hmo). exists mo. split; [|exact Hmo]. rewrite Em, app_assoc. apply last_last. }
    split; [|split].
    - intros s l0 r0 i Hs. destruct (Nat.ltb_spec s lab) as [H|H].
      + rewrite (En 0 L0). destruct (Hfirst ltac:(lia)) as (mo & -> & t0 & b0 & -> & _). reflexivity.
      + destruct (Hlast ltac:(lia)) as (mo & -> & t0 & b0 & -> & _). reflexivity.
    - intros s l0 r0 Hs. destruct (Nat.ltb_spec s lab) as [H|H]; [rewrite (En 0 L0)|]; apply pad_bias.
    - intros o l0 r0. rewrite En by (destruct (Nat.ltb_spec 0 lab) as [H|H]; [exact (L1 H)|exact L0]).
      destruct (Nat.ltb_spec 0 lab) as [H|H].
      + destruct lab as [|n]; [lia|]. destruct Hl as (mo & -> & _). rewrite Em. reflexivity.
      + assert (lab = 0) as E0 by lia. rewrite E0 in Hl. cbn [region_list] in Hl. rewrite Em, Hl. reflexivity.
  Qed.

  Lemma embed_dims m x e : mps_embed K m x = Ok e -> exists B, shp e = [B; m_input m; m_feature m].
  Proof.
    unfold mps_embed, ndim, size. intros E. destruct ((List.length (shp x) =? 2) || (List.length (shp x) =? 3)) eqn:E1; cbn [assert_ rbind] in E; [|discriminate E].
    destruct (nth 1 (shp x) 0 =? m_input m) eqn:E2; cbn [assert_ rbind] in E; [|discriminate E]. apply Nat.eqb_eq in E2.
    destruct (List.length (shp x) =? 3) eqn:E3.
    - destruct (nth 2 (shp x) 0 =? m_feature m) eqn:E4; [|discriminate E]. apply Nat.eqb_eq in E3, E4. injection E as <-.
      destruct (shp x) as [|a [|b [|c [|d r]]]]; try discriminate E3. cbn [nth] in *. exists a. congruence.
    - destruct (m_fmap m) as [f|].
      + destruct (embed_map K f x) as [t|]; cbn [rbind] in E; [|discriminate E]. destruct (list_eqb (shp t) _) eqn:E4; cbn [assert_ rbind] in E; [|discriminate E].
        injection E as <-. apply list_eqb_eq in E4. eauto.
      + destruct (m_feature m =? 2) eqn:E4; [|discriminate E]. apply Nat.eqb_eq in E4. rewrite E4. injection E as <-.
        exists (nth 0 (shp x) 0). unfold embed_default. cbn [shp]. unfold size. rewrite E2. reflexivity.
  Qed.

  (** two outcomes of a call of forward: the same result and the same state, or the same exception *)
  Definition same_call (a b : res (tensor K) * option nat) : Prop :=
    match a with
    | (Ok t, g) => exists t', b = (Ok t', g) /\ shp t' = shp t /\ forall i, Forall2 lt i (shp t) -> get t' i = get t i
    | (Err e, _) => fst b = Err e
    end.

  Lemma C114_shape N O D F per par label path std ub rnd m0 m x B g out g' : mps_init K N O D F per par label path std ub rnd = Ok m0 -> trained m0 m -> no_path path -> shp x = [B; N; F] ->
    mps_forward K m x g = (Ok out, g') -> exists n, shp out = [n; O] /\ g' = Some n.
  Proof.
    intros Hi Ht Hp Hx Ho. pose proof (exact_forward K _ _ _ _ _ _ _ _ _ _ _ _ _ x B g Hi Ht Hp Hx) as E.
    destruct (expected _ _ _ _ _ _) as [n|e]; [|rewrite Ho in E; discriminate E]. destruct E as (o & Eo & So & _). rewrite Ho in Eo. injection Eo as <- ->. eauto.
  Qed.
  Theorem C114_mps N O D D' F per par par' label path std std' ub rnd rnd' m0 m m0' :
    mps_init K N O D F per par label path std ub rnd = Ok m0 -> trained m0 m -> 0 < D -> D <= D' ->
    mps_init K N O D' F per par' label path std' ub rnd' = Ok m0' ->
    exists m', trained m0' m' /\ m_fmap m' = m_fmap m /\ forall x g, same_call (mps_forward K m x g) (mps_forward K m' x g).
  Proof.
    intros Hi Ht HD HDD Hi'.
    set (m' := mkMps K (m_input m0') (m_output m0') (m_bond m0') (m_feature m0') (m_periodic m0') (m_parallel m0') (m_label m0') (m_path m0') (m_use_bias m0') (map (pad_mod D D') (m_modules m)) (m_fmap m)).
    pose proof (init_built K _ _ _ _ _ _ _ _ _ _ _ _ _ Hi Ht) as Hb.
    assert (T0 : trained m0' m0') by (eapply init_trained; exact Hi').
    pose proof (init_built K _ _ _ _ _ _ _ _ _ _ _ _ _ Hi' T0) as Hb0.
    set (lab := match label with None => N / 2 | Some z => Z.to_nat z end) in *.
    assert (Htr : trained m0' m').
    { split; [|reflexivity]. cbn [m_modules m'].
      destruct (b_form K _ _ _ _ _ _ _ _ _ _ Hb) as (l & t & r & Em & Hl & Hts & Hr).
      destruct (b_form K _ _ _ _ _ _ _ _ _ _ Hb0) as (l0 & t0 & r0 & Em0 & Hl0 & Hts0 & Hr0).
      pose proof (init_no_spare _ _ _ _ _ _ _ _ _ _ _ _ _ Hi Ht) as S1. pose proof (init_no_spare _ _ _ _ _ _ _ _ _ _ _ _ _ Hi' T0) as S0.
      rewrite Em in S1 |- *. rewrite Em0 in S0 |- *. apply Forall_app in S1 as [S1 S1']. apply Forall_app in S0 as [S0 S0'].
      change ([OutputSite t] ++ r) with (OutputSite t :: r) in *. change ([OutputSite t0] ++ r0) with (OutputSite t0 :: r0) in *.
      inversion S1' as [|? ? _ S1'']; subst. inversion S0' as [|? ? _ S0'']; subst.
      rewrite map_app. apply Forall2_app; [apply (pad_region lab D D' F ub); assumption|]. cbn [map]. constructor; [|apply (pad_region (N - lab) D D' F ub); assumption].
      cbn [pad_mod]. constructor. unfold same_shape. rewrite Hts0. unfold size. rewrite Hts. reflexivity. }
    exists m'. split; [exact Htr|]. split; [reflexivity|].
    pose proof (init_built K _ _ _ _ _ _ _ _ _ _ _ _ _ Hi' Htr) as Hb'. fold lab in Hb'.
    destruct (weights_pad N O D D' F lab ub m m' (b_le K _ _ _ _ _ _ _ _ _ _ Hb) (b_lab K _ _ _ _ _ _ _ _ _ _ Hb) (b_form K _ _ _ _ _ _ _ _ _ _ Hb) (b_lab K _ _ _ _ _ _ _ _ _ _ Hb') eq_refl) as (W1 & W2 & W3).
    assert (Er : m_path m' = m_path m) by (rewrite (b_path K _ _ _ _ _ _ _ _ _ _ Hb), (b_path K _ _ _ _ _ _ _ _ _ _ Hb'); reflexivity).
    assert (Ee : forall y, mps_embed K m' y = mps_embed K m y).
    { intros y. unfold mps_embed. rewrite (b_in K _ _ _ _ _ _ _ _ _ _ Hb), (b_in K _ _ _ _ _ _ _ _ _ _ Hb'), (b_feat K _ _ _ _ _ _ _ _ _ _ Hb), (b_feat K _ _ _ _ _ _ _ _ _ _ Hb'). reflexivity. }
    intros x g. unfold mps_forward, mbind, lift. rewrite Er. destruct (route K (m_path m) x) as [y|ex]; [|reflexivity].
    rewrite Ee. destruct (mps_embed K m y) as [e|ex] eqn:E; [|reflexivity].
    destruct (embed_dims m y e E) as (B & He). rewrite (b_in K _ _ _ _ _ _ _ _ _ _ Hb), (b_feat K _ _ _ _ _ _ _ _ _ _ Hb) in He.
    pose proof (exact_region K _ _ _ _ _ _ _ _ _ _ Hb e B g He) as X. pose proof (exact_region K _ _ _ _ _ _ _ _ _ _ Hb' e B g He) as X'.
    rewrite (b_per K _ _ _ _ _ _ _ _ _ _ Hb), (b_par K _ _ _ _ _ _ _ _ _ _ Hb), (b_per K _ _ _ _ _ _ _ _ _ _ Hb'), (b_par K _ _ _ _ _ _ _ _ _ _ Hb').
    assert (Ex : expected N lab D' per g B = expected N lab D per g B).
    { unfold expected. replace (D' =? 0) with (D =? 0); [reflexivity|]. destruct D; [lia|]. destruct D'; [lia|]. reflexivity. }
    rewrite Ex in X'. destruct (expected N lab D per g B) as [n|ex].
    - destruct (X par) as (T1 & E1 & S1 & G1). destruct (X' par') as (T2 & E2 & S2 & G2). rewrite E1, E2. cbn [same_call]. exists T2. split; [reflexivity|]. split; [congruence|].
      intros i Hii. rewrite S1 in Hii. inversion Hii as [|b ? ? ? Hbb H1]; subst. inversion H1 as [|o ? ? ? Hoo H2]; subst. inversion H2; subst.
      rewrite G1, G2 by assumption. apply (value_larger per N lab D D' F); try assumption.
      + exact (b_le K _ _ _ _ _ _ _ _ _ _ Hb).
      + intros; apply W1; assumption.
      + intros; apply W2; assumption.
      + intros; apply W3.
    - destruct X as (g1 & X). destruct X' as (g2 & X'). rewrite X, X'. reflexivity.
  Qed.

  (** ** TI_MPS *)
  Definition pad_core (D D' : nat) (t : tensor K) : tensor K := mkT [D'; D'; size 2 t] (fun i => match i with [l; r; f] => inside D l r (get t [l; r; f]) | _ => s0 end).
  Definition pad_bias_ti (D D' : nat) (fixed : bool) (b : tensor K) : tensor K :=
    if fixed then eye2 K D' D' else mkT [D'; D'] (fun i => match i with [l; r] => inside D l r (get b [l; r]) | _ => s0 end).
  (** fixed ends keep their values: ones and a slice of the identity *)
  Definition pad_ti (fe : bool) (D D' : nat) (m0' m : ti_mps K) : ti_mps K :=
    mkTi K (t_output m0') (t_bond m0') (t_feature m0') (t_parallel m0') (t_use_bias m0') (t_fixed_bias m0')
      (pad_core D D' (t_core m))
      (if fe then t_vec m0' else mkT [D'] (fun i => match i with [l] => if l <? D then get (t_vec m) [l] else s0 | _ => s0 end))
      (if fe then t_mat m0' else mkT [D'; t_output m] (fun i => match i with [r; o] => if r <? D then get (t_mat m) [r; o] else s0 | _ => s0 end))
      (option_map (pad_bias_ti D D' (t_fixed_bias m)) (t_bias m)) (t_fmap m).

  (** nothing leaves the first block in either direction *)
  Definition split_at (D D' : nat) (M M' : mat K) : Prop :=
    block K D D' M M' /\ forall i j, D <= i -> i < D' -> j < D -> M' i j = s0.
  Lemma split_chain D D' l l' : D <= D' ->
    Forall2 (fun p q : nat * mat K => fst p = D /\ fst q = D' /\ split_at D D' (snd p) (snd q)) l l' -> split_at D D' (chain l) (chain l').
  Proof.
    intros HD H. split.
    - apply block_chain; [exact HD|]. induction H as [|p q l l' (E1 & E2 & E3 & _) H IH]; constructor; [|exact IH]. auto.
    - induction H as [|[n M] [n' M'] l l' (E1 & E2 & HM & HM') H IH]; intros i j Hi Hi' Hj.
      + cbn [chain]. unfold delta. replace (i =? j) with false by (symmetry; apply Nat.eqb_neq; lia). reflexivity.
      + cbn [fst snd] in E1, E2, HM, HM'. subst n n'. rewrite (chain_cons K). unfold mmul. apply (bsum_zero K). intros k Hk.
        destruct (Nat.ltb_spec k D) as [H1|H1]; [rewrite HM' by assumption; ring|]. rewrite (IH k j) by assumption. ring.
  Qed.
  Lemma split_sandwich D D' (v w v' w' : vec K) M M' : D <= D' -> split_at D D' M M' ->
    (forall i, i < D -> v' i = v i) -> (forall i, i < D' -> w' i = pad_vec K D w i) -> sandwich D' D' v' M' w' = sandwich D D v M w.
  Proof.
    intros HD [HM HM'] Hv Hw. unfold sandwich.
    rewrite (bsum_ext D' _ (fun i => if i <? D then bsum D (fun j => smul (v i) (smul (M i j) (w j))) else s0)); [apply bsum_cut; exact HD|].
    intros i Hi. destruct (Nat.ltb_spec i D) as [Hi'|Hi'].
    - rewrite (Hv i Hi'). rewrite (bsum_ext D' _ (fun j => if j <? D then smul (v i) (smul (M i j) (w j)) else s0)); [apply bsum_cut; exact HD|].
      intros j Hj. rewrite (Hw j Hj), (HM i j Hi' Hj). unfold pad_vec. destruct (j <? D); ring.
    - apply (bsum_zero K). intros j Hj. rewrite (Hw j Hj). unfold pad_vec. destruct (Nat.ltb_spec j D) as [H1|H1]; [rewrite HM' by assumption; ring|ring].
  Qed.

  Lemma index2 (i : list nat) a c : Forall2 lt i [a; c] -> exists b o, i = [b; o] /\ b < a /\ o < c.
  Proof. intros H. inversion H as [|b ? ? ? Hb H1]; subst. inversion H1 as [|o ? ? ? Ho H2]; subst. inversion H2; subst. eauto. Qed.
  Theorem C114_ti O D D' F par par' fe std std' ub fb over rnd rnd' m0 m m0' :
    ti_init K O D F par fe std ub fb over rnd = Ok m0 -> ti_trained m0 m -> D <= D' ->
    (fe = true -> t_vec m = t_vec m0 /\ t_mat m = t_mat m0) ->
    ti_init K O D' F par' fe std' ub fb over rnd' = Ok m0' ->
    exists m', ti_trained m0' m' /\ (fe = true -> t_vec m' = t_vec m0' /\ t_mat m' = t_mat m0') /\
      (forall inp, ti_format K m' inp = ti_format K m inp) /\
      forall inp g, (forall x, ti_format K m inp = Ok x -> exists B n, 1 <= n /\ shp x = [B; n; F]) ->
        same_call (ti_forward K m inp g) (ti_forward K m' inp g).
  Proof.
    intros Hi Ht HDD Hfe Hi'. set (m' := pad_ti fe D D' m0' m).
    pose proof (ti_init_built K _ _ _ _ _ _ _ _ _ _ _ _ Hi Ht) as Hb. destruct Hb.
    assert (HO : fe = true -> O <= D).
    { intros E. destruct (Nat.le_gt_cases O D) as [H|H]; [exact H|]. rewrite E, (C38_fixed_ends_rejected K) in Hi by exact H. discriminate Hi. }
    destruct (C38_constructor K O D F par fe std ub fb over rnd HO) as (m1 & E1 & _ & Hc1 & Hv1 & Hm1 & _ & Gv1 & Gm1 & Bm1).
    rewrite Hi in E1. injection E1 as <-.
    destruct (C38_constructor K O D' F par' fe std' ub fb over rnd' ltac:(intros E; specialize (HO E); lia)) as (m1 & E1 & T0 & Hc & Hv & Hm & _ & Gv & Gm & Bm).
    rewrite Hi' in E1. injection E1 as <-.
    pose proof (ti_init_built K _ _ _ _ _ _ _ _ _ _ _ _ Hi' T0) as Hb0. destruct Hb0.
    assert (EB : if ub then exists b0 b, t_bias m0' = Some b0 /\ t_bias m = Some b /\ (fb = true -> b0 = eye2 K D' D' /\ forall l r, get b [l; r] = delta l r) else t_bias m = None /\ t_bias m0' = None).
    { destruct ub; [|split; assumption]. destruct tb_bias0 as (b0 & B0 & _). destruct tb_bias as (b & B1 & _ & G1). exists b0, b. split; [exact B0|]. split; [exact B1|].
      intros Ef. split; [|intros l r; exact (G1 Ef l r)]. clear - Hi' B0 Ef. unfold ti_init in Hi'. rewrite Ef in Hi'.
      destruct (init_tensor K s0 _ _ _ _) as [t|]; cbn [rbind] in Hi'; [|discriminate Hi'].
      match type of Hi' with (let* _ := ?e in _) = _ => destruct e as [mt|]; cbn [rbind] in Hi'; [|discriminate Hi'] end.
      injection Hi' as <-. cbn [t_bias] in B0. congruence. }
    assert (Htr : ti_trained m0' m').
    { unfold ti_trained, m', pad_ti, same_shape. cbn [t_core t_vec t_mat t_bias t_fmap]. split; [|split; [|split; [|split; [|reflexivity]]]].
      - rewrite Hc. unfold pad_core, size. cbn [shp]. rewrite tb_core. reflexivity.
      - destruct fe; [reflexivity|]. rewrite Hv. reflexivity.
      - destruct fe; [reflexivity|]. rewrite Hm, tb_out. reflexivity.
      - destruct ub.
        + destruct EB as (b0 & b & B0 & B1 & Ef). rewrite B0, B1. cbn [option_map]. unfold pad_bias_ti. rewrite tb_fb.
          destruct tb_bias0 as (b0' & B0' & S0 & _). rewrite B0 in B0'. injection B0' as <-. split.
          * destruct fb; [|exact S0]. destruct (Ef eq_refl) as [-> _]. reflexivity.
          * rewrite tb_fb0. intros ->. destruct (Ef eq_refl) as [-> _]. reflexivity.
        + destruct EB as [-> ->]. exact Logic.I. }
    exists m'. split; [exact Htr|]. split; [intros ->; split; reflexivity|].
    assert (Efmt : forall inp, ti_format K m' inp = ti_format K m inp).
    { intros inp. assert (Q : forall y, ti_embed K m' y = ti_embed K m y) by (intros y; unfold ti_embed, m', pad_ti; cbn [t_fmap t_feature]; rewrite tb_feat, tb_feat0; reflexivity).
      destruct inp as [x|l]; cbn [ti_format].
      - rewrite Q. change (t_feature m') with (t_feature m0'). rewrite tb_feat, tb_feat0. reflexivity.
      - destruct l as [|s l]; [reflexivity|]. change (t_feature m') with (t_feature m0'). change (t_use_bias m') with (t_use_bias m0'). change (t_fixed_bias m') with (t_fixed_bias m0'). rewrite tb_feat, tb_feat0, tb_ub, tb_ub0, tb_fb, tb_fb0.
        destruct (assert_ _); cbn [rbind]; [|reflexivity]. destruct (assert_ _); cbn [rbind]; [|reflexivity]. destruct (assert_ _); cbn [rbind]; [|reflexivity].
        destruct (_ && _); [reflexivity|]. match goal with |- rbind ?e _ = _ => destruct e as [b|]; cbn [rbind]; [|reflexivity] end. rewrite Q. reflexivity. }
    split; [exact Efmt|].
    pose proof (ti_init_built K _ _ _ _ _ _ _ _ _ _ _ _ Hi' Htr) as Hb'. pose proof (ti_init_built K _ _ _ _ _ _ _ _ _ _ _ _ Hi Ht) as Hb.
    intros inp g Hin. rewrite !ti_forward_eq, Efmt. destruct (ti_format K m inp) as [x|ex]; [|reflexivity].
    destruct (Hin x eq_refl) as (B & n & Hn & Hx).
    destruct (after_format_value K _ _ _ _ _ _ _ x B n g Hb Hx Hn) as (T1 & E1 & S1 & G1).
    destruct (after_format_value K _ _ _ _ _ _ _ x B n g Hb' Hx Hn) as (T2 & E2 & S2 & G2).
    rewrite E1, E2. cbn [same_call]. exists T2. split; [reflexivity|]. split; [congruence|].
    intros i Hii. rewrite S1 in Hii. destruct (index2 _ _ _ Hii) as (b & o & -> & Hbb & Hoo).
    rewrite G1, G2 by assumption. unfold ti_value.
    assert (Ebm : split_at D D' (ti_bias_mat m) (ti_bias_mat m')).
    { unfold ti_bias_mat, m', pad_ti. cbn [t_use_bias t_bias]. rewrite tb_ub, tb_ub0. destruct ub.
      - destruct EB as (b0 & b1 & _ & B1 & Ef). rewrite B1. cbn [option_map]. unfold pad_bias_ti. rewrite tb_fb. destruct fb.
        + destruct (Ef eq_refl) as [_ G]. split.
          * intros l r Hl Hr. change (get (eye2 K D' D') [l; r]) with (if l =? r then s1 else s0 : K). rewrite G. unfold delta. destruct (Nat.ltb_spec r D); [reflexivity|]. replace (l =? r) with false by (symmetry; apply Nat.eqb_neq; lia). reflexivity.
          * intros l r Hl _ Hr. change (get (eye2 K D' D') [l; r]) with (if l =? r then s1 else s0 : K). replace (l =? r) with false by (symmetry; apply Nat.eqb_neq; lia). reflexivity.
        + split.
          * intros l r Hl Hr. cbn [get]. unfold inside. replace (l <? D) with true by (symmetry; apply Nat.ltb_lt; exact Hl). reflexivity.
          * intros l r Hl _ Hr. cbn [get]. unfold inside. replace (l <? D) with false by (symmetry; apply Nat.ltb_ge; exact Hl). reflexivity.
      - split; [intros l r _ _; unfold no_bias; destruct (_ <? _); reflexivity|reflexivity]. }
    change (t_bond m') with (t_bond m0'). change (t_feature m') with (t_feature m0'). rewrite tb_bond, tb_bond0, tb_feat, tb_feat0.
    apply split_sandwich; [exact HDD| | |].
    - apply split_chain; [exact HDD|]. generalize (seq 0 n). intros js. induction js as [|s js IH]; [constructor|]. constructor; [|exact IH].
      split; [reflexivity|]. split; [reflexivity|]. cbn [snd]. destruct Ebm as [E1' E2']. split.
      + intros l r Hl Hr. unfold site_matrix. rewrite (E1' l r Hl Hr). unfold m', pad_ti. cbn [t_core]. unfold pad_core. cbn [get]. unfold inside.
        replace (l <? D) with true by (symmetry; apply Nat.ltb_lt; exact Hl). cbn [andb]. destruct (r <? D); [reflexivity|].
        rewrite (bsum_zero K); [ring|]. intros; ring.
      + intros l r Hl Hl' Hr. unfold site_matrix. rewrite (E2' l r Hl Hl' Hr). unfold m', pad_ti. cbn [t_core]. unfold pad_core. cbn [get]. unfold inside.
        replace (l <? D) with false by (symmetry; apply Nat.ltb_ge; exact Hl). cbn [andb]. rewrite (bsum_zero K); [ring|]. intros; ring.
    - intros l Hl. unfold m', pad_ti. cbn [t_vec]. destruct fe.
      + destruct (Hfe eq_refl) as [-> _]. rewrite Gv1, Gv. reflexivity.
      + cbn [get]. replace (l <? D) with true by (symmetry; apply Nat.ltb_lt; exact Hl). reflexivity.
    - intros r Hr. unfold pad_vec, m', pad_ti. cbn [t_mat]. destruct fe.
      + destruct (Hfe eq_refl) as [_ ->]. rewrite (Gm r o Hr Hoo). destruct (Nat.ltb_spec r D) as [H|H]; [rewrite (Gm1 r o H Hoo); reflexivity|].
        unfold delta. specialize (HO eq_refl). replace (r =? o) with false by (symmetry; apply Nat.eqb_neq; lia). reflexivity.
      + reflexivity.
  Qed.
End Larger.

(** ** ProbMPS and ProbUnifMPS *)
Section LargerProb.
  Variable K : numfield.
  Add Ring KrLa3 : (rth K).
  Definition pad_prob (uniform : bool) (D D' : nat) (m : pmps K) : pmps K := {|
    pm_core := if uniform then mkT [size 0 (pm_core K m); D'; D'] (fun i => match i with [k; l; r] => inside K D l r (get (pm_core K m) [k; l; r]) | _ => s0 end)
               else mkT [size 0 (pm_core K m); size 1 (pm_core K m); D'; D'] (fun i => match i with [t; k; l; r] => inside K D l r (get (pm_core K m) [t; k; l; r]) | _ => s0 end);
    pm_edge := mkT [2; D'] (fun i => match i with [e; j] => if j <? D then get (pm_edge K m) [e; j] else s0 | _ => s0 end);
    pm_bias := option_map (fun b => mkT [D'; D'] (fun i => match i with [l; r] => inside K D l r (get b [l; r]) | _ => s0 end)) (pm_bias K m);
    pm_emb := pm_emb K m |}.
  Lemma pad_prob_shapes uniform D D' m n d : shapes_of K uniform m n d D -> D <= D' -> shapes_of K uniform (pad_prob uniform D D' m) n d D'.
  Proof.
    intros H HD. destruct uniform; cbn [shapes_of] in *; [unfold shapes_unif in *|unfold shapes_fixed in *]; cbn [pm_core pm_edge pm_bias pad_prob shp]; unfold size.
    - destruct H as (H1 & H2 & H3 & H4 & H5). rewrite H3. repeat (split; [try lia; try reflexivity|]). destruct (pm_bias K m); [reflexivity|exact Logic.I].
    - destruct H as (H0 & H1 & H2 & H3 & H4 & H5). rewrite H3. repeat (split; [try lia; try reflexivity|]). destruct (pm_bias K m); [reflexivity|exact Logic.I].
  Qed.
  Lemma pad_entry uniform D D' m t k i j : entry (pm_core K (pad_prob uniform D D' m)) uniform t k i j = inside K D i j (entry (pm_core K m) uniform t k i j).
  Proof. unfold entry. destruct uniform; reflexivity. Qed.
  Lemma pad_bias_at uniform D D' m i j : bias_at (pm_bias K (pad_prob uniform D D' m)) i j = inside K D i j (bias_at (pm_bias K m) i j).
  Proof. cbn [pm_bias pad_prob]. destruct (pm_bias K m); cbn [option_map bias_at]; [reflexivity|]. rewrite inside_0. reflexivity. Qed.
  Lemma inside_add D i j (a b : K) : sadd (inside K D i j a) (inside K D i j b) = inside K D i j (sadd a b).
  Proof. unfold inside. destruct (_ && _); [reflexivity|ring]. Qed.
  Lemma pad_letter uniform D D' m t k i j : letter_site (pm_core K (pad_prob uniform D D' m)) uniform (pm_bias K (pad_prob uniform D D' m)) t k i j = inside K D i j (letter_site (pm_core K m) uniform (pm_bias K m) t k i j).
  Proof. unfold letter_site. rewrite pad_entry, pad_bias_at. apply inside_add. Qed.
  Lemma pad_vecsite uniform D D' m d t phi i j : vec_site d (pm_core K (pad_prob uniform D D' m)) uniform (pm_bias K (pad_prob uniform D D' m)) t phi i j = inside K D i j (vec_site d (pm_core K m) uniform (pm_bias K m) t phi i j).
  Proof.
    unfold vec_site. rewrite pad_bias_at, <- inside_add. f_equal.
    rewrite (bsum_ext d _ (fun k => smul (phi k) (inside K D i j (entry (pm_core K m) uniform t k i j)))) by (intros; rewrite pad_entry; reflexivity).
    unfold inside. destruct (_ && _); [reflexivity|]. apply (bsum_zero K). intros; ring.
  Qed.
  Lemma pad_edge uniform D D' m e i : edge_at (pm_edge K (pad_prob uniform D D' m)) e i = pad_vec K D (edge_at (pm_edge K m) e) i.
  Proof. reflexivity. Qed.
  Definition padded (D D' : nat) (p q : nat * mat K) : Prop := fst p = D /\ fst q = D' /\ forall i j, i < D' -> j < D' -> snd q i j = inside K D i j (snd p i j).
  Lemma padded_block D D' l l' : D <= D' -> Forall2 (padded D D') l l' -> block K D D' (chain l) (chain l').
  Proof.
    intros HDD H. apply (block_chain K D D' _ _ HDD). induction H as [|p q l l' (E1 & E2 & H) HF IH]; constructor; [|exact IH].
    split; [exact E1|]. split; [exact E2|]. intros i j Hi Hj. rewrite H by lia. unfold inside. replace (i <? D) with true by (symmetry; apply Nat.ltb_lt; exact Hi). reflexivity.
  Qed.
  Lemma padded_zero D D' l l' i j : Forall2 (padded D D') l l' -> l <> [] -> D <= i -> i < D' -> chain l' i j = s0.
  Proof.
    intros H Hne Hi Hi'. destruct H as [|p q l l' (E1 & E2 & H) HF]; [contradiction|]. destruct q as [n M]. cbn [fst snd] in *. subst n.
    rewrite (chain_cons K). apply (bsum_zero K). intros k Hk. rewrite (H i k Hi' Hk). unfold inside. replace (i <? D) with false by (symmetry; apply Nat.ltb_ge; exact Hi). cbn [andb]. ring.
  Qed.
  Lemma padded_sites {X} D D' (s s' : nat -> X -> mat K) : (forall t x i j, s' t x i j = inside K D i j (s t x i j)) ->
    forall xs t, Forall2 (padded D D') (sites D s t xs) (sites D' s' t xs).
  Proof. intros H. induction xs as [|x xs IH]; intros t; cbn [sites]; [constructor|]. constructor; [|apply IH]. split; [reflexivity|]. split; [reflexivity|]. intros i j _ _. apply H. Qed.
  Lemma padded_amplitude {X} uniform D D' m (s s' : nat -> X -> mat K) xs : D <= D' -> (forall t x i j, s' t x i j = inside K D i j (s t x i j)) ->
    amplitude D' (edge_at (pm_edge K (pad_prob uniform D D' m)) 0) (edge_at (pm_edge K (pad_prob uniform D D' m)) 1) s' xs = amplitude D (edge_at (pm_edge K m) 0) (edge_at (pm_edge K m) 1) s xs.
  Proof.
    intros HDD H. unfold amplitude. apply (block_sandwich K D D'); [exact HDD| | |].
    - apply padded_block; [exact HDD|]. apply padded_sites. exact H.
    - intros i _. apply pad_edge.
    - intros i _. apply pad_edge.
  Qed.
  Lemma pad_amp uniform D D' m n d x b : D <= D' ->
    row_amp (pm_core K (pad_prob uniform D D' m)) (pm_edge K (pad_prob uniform D D' m)) (pm_bias K (pad_prob uniform D D' m)) uniform n d D' x b
    = row_amp (pm_core K m) (pm_edge K m) (pm_bias K m) uniform n d D x b.
  Proof.
    intros HDD. unfold row_amp. destruct x as [ix|v].
    - apply padded_amplitude; [exact HDD|]. intros. apply pad_letter.
    - apply padded_amplitude; [exact HDD|]. intros. apply pad_vecsite.
  Qed.
  Lemma pad_Z uniform D D' m n d : D <= D' -> Zfun K uniform (pad_prob uniform D D' m) n d D' = Zfun K uniform m n d D.
  Proof.
    intros HDD. unfold Zfun, partition_fn. f_equal. apply FunctionalExtensionality.functional_extensionality. intros xs. f_equal.
    apply padded_amplitude; [exact HDD|]. intros. apply pad_letter.
  Qed.
  Lemma sites_length {X} D (s : nat -> X -> mat K) : forall xs t, List.length (sites D s t xs) = List.length xs.
  Proof. induction xs as [|x xs IH]; intros t; cbn; [reflexivity|]. rewrite IH. reflexivity. Qed.
  Lemma pad_lost uniform D D' m n d x slim par b : D <= D' ->
    row_lost (pm_core K (pad_prob uniform D D' m)) (pm_edge K (pad_prob uniform D D' m)) (pm_bias K (pad_prob uniform D D' m)) uniform n d D' x slim par b
    <-> row_lost (pm_core K m) (pm_edge K m) (pm_bias K m) uniform n d D x slim par b.
  Proof.
    intros HDD. unfold row_lost. cbv zeta. rewrite pad_amp by exact HDD.
    set (l := row_mats _ _ uniform n d D x b). set (l' := row_mats _ _ uniform n d D' x b).
    assert (H : Forall2 (padded D D') l l').
    { unfold l, l', row_mats. destruct x; apply padded_sites; intros; [apply pad_letter|apply pad_vecsite]. }
    pose proof (padded_block D D' l l' HDD H) as HB.
    assert (Hl : List.length l = n) by (unfold l, row_mats; destruct x; rewrite sites_length; unfold row_letters, row_vectors; rewrite map_length; apply seq_length).
    destruct slim; [|destruct par; [|reflexivity]].
    - assert (Ev : forall j, j < D' -> vmul D' (edge_at (pm_edge K (pad_prob uniform D D' m)) 0) (chain l') j = if j <? D then vmul D (edge_at (pm_edge K m) 0) (chain l) j else s0).
      { intros j Hj. unfold vmul. rewrite (bsum_ext D' _ (fun i => if i <? D then if j <? D then smul (edge_at (pm_edge K m) 0 i) (chain l i j) else s0 else s0)).
        - rewrite (bsum_cut K) by exact HDD. destruct (j <? D); [reflexivity|]. apply (bsum_zero K). reflexivity.
        - intros i Hi. rewrite pad_edge. unfold pad_vec. destruct (Nat.ltb_spec i D) as [Hi'|Hi']; [rewrite (HB i j Hi' Hj); destruct (j <? D); ring|ring]. }
      split; intros Hz j Hj.
      + specialize (Hz j ltac:(lia)). rewrite Ev in Hz by lia. replace (j <? D) with true in Hz by (symmetry; apply Nat.ltb_lt; exact Hj). exact Hz.
      + rewrite Ev by exact Hj. destruct (Nat.ltb_spec j D) as [H1|H1]; [apply Hz, H1|reflexivity].
    - split; intros [Hn Hz]; (split; [exact Hn|]); intros i j Hi Hj.
      + specialize (Hz i j ltac:(lia) ltac:(lia)). rewrite (HB i j Hi ltac:(lia)) in Hz. replace (j <? D) with true in Hz by (symmetry; apply Nat.ltb_lt; exact Hj). exact Hz.
      + destruct (Nat.ltb_spec i D) as [H1|H1].
        * rewrite (HB i j H1 Hj). destruct (Nat.ltb_spec j D) as [H2|H2]; [apply Hz; assumption|reflexivity].
        * apply (padded_zero D D' l l' i j H); [intros E; rewrite E in Hl; cbn in Hl; lia|exact H1|exact Hi].
  Qed.

  (** the same outcome: the same log probabilities (-inf included) or the same exception *)
  Definition same_result (a b : res (tensor xreal)) : Prop :=
    match a with
    | Ok t => exists t', b = Ok t' /\ shp t' = shp t /\ forall i, Forall2 lt i (shp t) -> get t' i = get t i
    | Err e => b = Err e
    end.
  Theorem C114_prob (uniform : bool) (m : pmps K) (n d D D' : nat) : shapes_of K uniform m n d D -> D <= D' -> pm_emb K m = None ->
    exists m', shapes_of K uniform m' n d D' /\ pm_emb K m' = None /\ (pm_bias K m' = None <-> pm_bias K m = None) /\
      forall (x : tin K) slim par batch, wf_input x batch n d -> 0 < n -> (slim = true -> pm_bias K m = None) ->
        same_result (snd (fwd K uniform m x slim par)) (snd (fwd K uniform m' x slim par)).
  Proof.
    intros Hs HDD He. exists (pad_prob uniform D D' m). pose proof (pad_prob_shapes uniform D D' m n d Hs HDD) as Hs'.
    assert (Hbias : pm_bias K (pad_prob uniform D D' m) = None <-> pm_bias K m = None) by (cbn [pm_bias pad_prob]; destruct (pm_bias K m); split; (reflexivity || discriminate)).
    split; [exact Hs'|]. split; [exact He|]. split; [exact Hbias|]. intros x slim par batch Hx Hn Hsl.
    pose proof (C90_forward_exact K uniform m x slim par batch n d D Hs He Hx Hn Hsl) as A.
    pose proof (C90_forward_exact K uniform (pad_prob uniform D D' m) x slim par batch n d D' Hs' He Hx Hn ltac:(intros E; apply Hbias, Hsl, E)) as B.
    cbv zeta in A, B. rewrite pad_Z in B by exact HDD.
    destruct (snd (fwd K uniform m x slim par)) as [T|e]; destruct (snd (fwd K uniform (pad_prob uniform D D' m) x slim par)) as [T'|e'].
    - destruct A as (HZ & _ & ST & GT). destruct B as (_ & _ & ST' & GT'). exists T'. split; [reflexivity|]. split; [congruence|].
      intros i Hi. rewrite ST in Hi. inversion Hi as [|b ? ? ? Hb H1]; subst. inversion H1; subst.
      specialize (GT b Hb). specialize (GT' b Hb). cbv zeta in GT, GT'. rewrite pad_amp in GT' by exact HDD.
      destruct GT as [G1 G2], GT' as [G1' G2'].
      destruct (classic (row_amp (pm_core K m) (pm_edge K m) (pm_bias K m) uniform n d D x b = s0)) as [Ez|Ez]; [rewrite G1, G1' by exact Ez|rewrite G2, G2' by exact Ez]; reflexivity.
    - destruct A as (HZ & HL & _). destruct B as (_ & [E|(b & Hb & HL')]); [rewrite E in HZ; exfalso; lra|].
      exfalso. apply (HL b Hb). apply pad_lost in HL'; assumption.
    - destruct B as (HZ & HL & _). destruct A as (_ & [E|(b & Hb & HL')]); [rewrite E in HZ; exfalso; lra|].
      exfalso. apply (HL b Hb). apply pad_lost; assumption.
    - destruct A as [-> _], B as [-> _]. reflexivity.
  Qed.
End LargerProb.

Print Assumptions C114_mps.
Print Assumptions C114_ti.
Print Assumptions C114_prob.

(** ** the hypotheses are met *)
(** bond dimension 2 memorises two samples (C112), so bond dimension 5 does: with the same label site and a fresh initialisation *)
Definition large_mps : mps Z_cring := get_mps (mps_init Z_cring 4 2 5 2 false true None PNone (3%Z : Z_cring) true tick).
Example C114_met : mps_init Z_cring 4 2 5 2 false true None PNone (3%Z : Z_cring) true tick = Ok large_mps /\
  exists m, trained large_mps m /\
    forall g, exists out, mps_forward Z_cring m (mkT [2; 4; 2] (fun i => match i with [b; s; f] => one_hot (nth b [[0; 1; 1; 0]; [1; 1; 0; 1]] []) s f | _ => s0 end)) g = (Ok out, Some 2) /\
      get out [0; 0] = 7%Z /\ get out [0; 1] = (-3)%Z /\ get out [1; 0] = 5%Z /\ get out [1; 1] = 11%Z.
Proof.
  destruct (C34_constructor Z_cring 4 2 5 2 false true None PNone (3%Z : Z_cring) true tick) as (m0' & Em & _ & El); [exact Logic.I|left; left; reflexivity|].
  assert (Ec : large_mps = m0') by (unfold large_mps; rewrite Em; reflexivity). rewrite Ec. split; [exact Em|].
  destruct C112_met as (E0 & _ & m & Ht & H).
  destruct (C114_mps Z_cring 4 2 2 5 2 false false true None PNone (1%Z : Z_cring) (3%Z : Z_cring) true tick tick cap_mps m m0' E0 Ht ltac:(lia) ltac:(lia) Em) as (m' & Ht' & _ & H').
  exists m'. split; [exact Ht'|]. intros g. destruct (H g) as (out & Eo & G00 & G01 & G10 & G11).
  specialize (H' (mkT [2; 4; 2] (fun i => match i with [b; s; f] => one_hot (nth b [[0; 1; 1; 0]; [1; 1; 0; 1]] []) s f | _ => s0 end)) g).
  rewrite Eo in H'. destruct H' as (out' & E' & Hs & G).
  assert (Es : shp out = [2; 2]).
  { pose proof (C114_shape Z_cring 4 2 2 2 false false None PNone (1%Z : Z_cring) true tick cap_mps m (mkT [2; 4; 2] (fun i => match i with [b; s; f] => one_hot (nth b [[0; 1; 1; 0]; [1; 1; 0; 1]] []) s f | _ => s0 end)) 2 g out (Some 2) E0 Ht (or_introl eq_refl) eq_refl Eo) as (n & Es & En). injection En as <-. exact Es. }
  exists out'. split; [exact E'|]. rewrite Es in G.
  assert (V : forall b o, b < 2 -> o < 2 -> Forall2 lt [b; o] [2; 2]) by (intros; repeat (apply Forall2_cons; [assumption|]); apply Forall2_nil).
  rewrite !G by (apply V; lia). auto.
Qed.
Definition ti_x : tensor Z_cring := mkT [1; 3; 2] (tick 0).
(** TI_MPS, with free and with fixed ends, and a fixed bias *)
Example C114_ti_met : forall fe : bool, exists m0 m0' : ti_mps Z_cring,
  ti_init Z_cring 2 2 2 false fe (1%Z : Z_cring) true true (fun _ z => z) tick = Ok m0 /\
  ti_init Z_cring 2 6 2 true fe (5%Z : Z_cring) true true (fun _ z => z) tick = Ok m0' /\
  exists m', ti_trained m0' m' /\ forall g, exists out, ti_forward Z_cring m' (TTensor ti_x) g = (Ok out, Some 1) /\
    get out [0; 0] = ti_value m0 3 (fun s i => tick 0 [0; s; i]) 0.
Proof.
  intros fe.
  destruct (C38_constructor Z_cring 2 2 2 false fe (1%Z : Z_cring) true true (fun _ z => z) tick ltac:(lia)) as (m0 & E0 & Ht & _).
  destruct (C38_constructor Z_cring 2 6 2 true fe (5%Z : Z_cring) true true (fun _ z => z) tick ltac:(lia)) as (m0' & E0' & _ & _).
  exists m0, m0'. split; [exact E0|]. split; [exact E0'|].
  destruct (C114_ti Z_cring 2 2 6 2 false true fe (1%Z : Z_cring) (5%Z : Z_cring) true true (fun _ z => z) tick tick m0 m0 m0' E0 Ht ltac:(lia) ltac:(auto) E0') as (m' & Ht' & _ & _ & H).
  exists m'. split; [exact Ht'|]. intros g.
  destruct (C38_ti_forward Z_cring 2 2 2 false fe (1%Z : Z_cring) true true (fun _ z => z) tick m0 m0 ti_x 1 3 g E0 Ht eq_refl ltac:(lia)) as (out & Eo & So & Go).
  specialize (H (TTensor ti_x) g). rewrite Eo in H. destruct H as (out' & E' & Hs & G).
  - intros x Ex. exists 1, 3. split; [lia|]. pose proof (ti_init_built Z_cring _ _ _ _ _ _ _ _ _ _ _ _ E0 Ht) as Hb.
    rewrite (ti_format_pre Z_cring m0 ti_x 1 3 2 (tb_feat _ _ _ _ _ _ _ _ Hb) eq_refl) in Ex. injection Ex as <-. reflexivity.
  - exists out'. split; [exact E'|]. rewrite So in G. rewrite G by (repeat (apply Forall2_cons; [lia|]); apply Forall2_nil). rewrite Go by lia. reflexivity.
Qed.
(** a biased ProbMPS of bond dimension 2 whose four log probabilities are finite *)
Example C114_prob_met : exists m' T T', shapes_of R_num false m' 2 2 7 /\
  snd (fwd R_num false pe_mb (TLong pe_all) false true) = Ok T /\ snd (fwd R_num false m' (TLong pe_all) false true) = Ok T' /\
  forall b, b < 4 -> get T' [b] = get T [b] /\ exists r, get T [b] = XFin r.
Proof.
  assert (Hs : shapes_of R_num false pe_mb 2 2 2) by (cbn; repeat split; lia).
  destruct (C114_prob R_num false pe_mb 2 2 2 7 Hs ltac:(lia) eq_refl) as (m' & Hs' & _ & _ & H).
  destruct (C08_forward_born R_num pe_mb pe_all false true 4 2 2 2) as (T & E & ST & GT); try assumption; try reflexivity; try lia; try (apply pe_wf); try discriminate; try (apply C08_hyps_met).
  specialize (H (TLong pe_all) false true 4 pe_wf ltac:(lia) ltac:(discriminate)). change (snd (fwd R_num false pe_mb (TLong pe_all) false true)) with (snd (forward_fixed R_num pe_mb (TLong pe_all) false true)) in *.
  rewrite E in H. destruct H as (T' & E' & S' & G'). exists m', T, T'. split; [exact Hs'|]. split; [exact E|]. split; [exact E'|].
  intros b Hb. split; [apply G'; rewrite ST; apply Forall2_cons; [exact Hb|apply Forall2_nil]|]. eexists. apply GT, Hb.
Qed.
