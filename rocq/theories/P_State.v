(** * P_State: saving and loading parameters (C108) *)
From Coq Require Import Reals.
From Verif Require P_Mps P_TiMps.
From Verif Require Import Base Scalars Tensor Utils UtilsSpec UtilsProofs TorchMps TmSpec TmProofs TmFinal Adaptive AdMerge AdSweep AdKinds AdSpec AdFlip AdState AdCall P_Ad P_AdEx
  MpsBase Embeddings ProbMps StateDict StateProofs.

Section Mps.
  Variable K : cring.
  Notation mod_ := (module K).
  Notation alike := (alike K).
  Lemma alike_sym a b : alike a b -> alike b a.
  Proof. destruct 1 as [t t' ub b b' Ht Hb| | | |]; constructor; try (symmetry; assumption). destruct b, b'; try exact Hb. symmetry. exact Hb. Qed.
  Lemma alike_trans a b c : alike a b -> alike b c -> alike a c.
  Proof.
    destruct 1 as [t t' ub b b' Ht Hb|t t' Ht|t t' Ht|t t' Ht|t t' lo Ht]; intros H; inversion H as [u u' ub2 b2 b2' Hu Hb2|u u' Hu|u u' Hu|u u' Hu|u u' lo2 Hu]; subst; constructor; try congruence.
    destruct b, b', b2'; try exact Logic.I; try (exfalso; assumption). congruence.
  Qed.
  Lemma all_sym l l' : Forall2 alike l l' -> Forall2 alike l' l.
  Proof. induction 1; constructor; [apply alike_sym; assumption|assumption]. Qed.
  Lemma all_trans l l' : Forall2 alike l l' -> forall l'', Forall2 alike l' l'' -> Forall2 alike l l''.
  Proof. induction 1; intros l'' H'; inversion H'; subst; constructor; [eapply alike_trans; eassumption|auto]. Qed.
  Lemma trained_alike l l' : Forall2 mod_trained l l' -> Forall2 alike l l'.
  Proof. induction 1 as [|a b l l' H _ IH]; constructor; [|exact IH]. destruct H; constructor; auto. Qed.
  Lemma build_alike ad N O D F lab std std' ub rnd rnd' l l' :
    build_modules K ad N O D F lab std ub rnd = Ok l -> build_modules K ad N O D F lab std' ub rnd' = Ok l' -> Forall2 alike l l'.
  Proof.
    assert (R : forall std rnd k n l, build_region K ad O D F std ub rnd k n = Ok l -> match n with 0 => l = [] | _ => exists t, l = [InputRegion t ub (if ub then Some (unsq_front 1 (eye2 K D D)) else None)] /\ shp t = [n; D; D; F] end).
    { clear. intros std rnd k n l. unfold build_region. destruct n as [|n]; [cbn; intros E; injection E as <-; reflexivity|].
      change (0 <? Datatypes.S n) with true. cbv iota. intros E.
      destruct (init_tensor K s0 _ _ _ _) as [t|] eqn:Et; cbn [rbind] in E; [|discriminate].
      apply init_tensor_shape in Et; [|reflexivity].
      destruct (input_region K t ub None) as [m|] eqn:Em; cbn [rbind] in E; [|discriminate]. injection E as <-.
      apply (input_region_form K _ _ _ _ _ _ Et) in Em. subst m. exists t. split; [reflexivity|exact Et]. }
    assert (R2 : forall s r s' r' k n l l', build_region K ad O D F s ub r k n = Ok l -> build_region K ad O D F s' ub r' k n = Ok l' -> Forall2 alike l l').
    { intros s r s' r' k n a b E1 E2. apply R in E1. apply R in E2. destruct n; [subst; constructor|].
      destruct E1 as (t & -> & Ht). destruct E2 as (t' & -> & Ht'). constructor; [|constructor]. constructor; [congruence|]. destruct ub; [reflexivity|exact Logic.I]. }
    unfold build_modules. intros E1 E2.
    destruct (build_region K ad O D F std ub rnd 0 lab) as [a|] eqn:Ea; cbn [rbind] in E1; [|discriminate].
    destruct (build_region K ad O D F std' ub rnd' 0 lab) as [a'|] eqn:Ea'; cbn [rbind] in E2; [|discriminate].
    destruct (init_tensor K s0 _ _ _ (mkT _ (rnd 1))) as [t|] eqn:Et; cbn [rbind] in E1; [|discriminate].
    destruct (init_tensor K s0 _ _ _ (mkT _ (rnd' 1))) as [t'|] eqn:Et'; cbn [rbind] in E2; [|discriminate].
    destruct (build_region K ad O D F std ub rnd 2 (N - lab)) as [r|] eqn:Er; cbn [rbind] in E1; [|discriminate]. injection E1 as <-.
    destruct (build_region K ad O D F std' ub rnd' 2 (N - lab)) as [r'|] eqn:Er'; cbn [rbind] in E2; [|discriminate]. injection E2 as <-.
    apply init_tensor_shape in Et; [|reflexivity]. apply init_tensor_shape in Et'; [|reflexivity].
    apply Forall2_app; [eapply R2; eassumption|]. cbn [app]. constructor; [constructor; congruence|eapply R2; eassumption].
  Qed.

  (** a list of modules in which all keys have the prefix [pre] *)
  Lemma layout_functional pre c l : functional (mods_layout K pre c 0 l).
  Proof.
    intros k p q H1 H2. apply mods_layout_in in H1 as (j & m & b & _ & _ & -> & ->). apply mods_layout_in in H2 as (j' & m' & b' & _ & _ & E & ->).
    apply app_inv_head in E. injection E as E E'. rewrite E. destruct b, b'; try reflexivity; discriminate E'.
  Qed.
  Lemma layout_injective pre c l : injective (mods_layout K pre c 0 l).
  Proof.
    intros k k' p H1 H2. apply mods_layout_in in H1 as (j & m & b & _ & _ & -> & ->). apply mods_layout_in in H2 as (j' & m' & b' & _ & _ & -> & E).
    injection E as E1 E2. rewrite E1, E2. reflexivity.
  Qed.

  (** The parameters of a trained model, loaded into any model that was built with the same arguments
      (up to the standard deviation and the random numbers of the initialization) and may have been trained
      too, give the saved model back, provided that the same feature map is registered. *)
  Theorem C108_mps N O D F per par label path std std' ub rnd rnd' m0 n0 m n :
    mps_init K N O D F per par label path std ub rnd = Ok m0 -> mps_init K N O D F per par label path std' ub rnd' = Ok n0 ->
    trained m0 m -> trained n0 n -> m_fmap n = m_fmap m ->
    mps_load K n (mps_state_dict K m) = (m, Ok tt).
  Proof.
    unfold mps_init. intros E1 E2 (T1 & F1) (T2 & F2) Hf. destruct (label_of N label) as [lab|]; cbn [rbind] in E1, E2; [|discriminate].
    destruct (build_modules K false N O D F lab std ub rnd) as [l|] eqn:B1; cbn [rbind] in E1; [|discriminate].
    destruct (build_modules K false N O D F lab std' ub rnd') as [l'|] eqn:B2; cbn [rbind] in E2; [|discriminate].
    destruct (region_len K l =? N); cbn [assert_ rbind] in E1; [|discriminate]. destruct (region_len K l' =? N); cbn [assert_ rbind] in E2; [|discriminate].
    destruct (check_path N path) as [[]|]; cbn [rbind] in E1, E2; [|discriminate]. injection E1 as <-. injection E2 as <-.
    cbn [m_modules m_input m_output m_bond m_feature m_periodic m_parallel m_label m_path m_use_bias] in *.
    pose proof (build_alike _ _ _ _ _ _ _ _ _ _ _ _ _ B1 B2) as A.
    assert (AL : Forall2 alike (m_modules n) (m_modules m)).
    { eapply all_trans; [apply all_sym; apply trained_alike; exact T2|]. eapply all_trans; [apply all_sym; exact A|]. apply trained_alike. exact T1. }
    unfold mps_load, mps_state_dict, mps_layout. rewrite <- (alike_layout K _ _ _ _ AL).
    destruct (load_same K (mods_layout K (list_key "module_list") 0 0 (m_modules n)) (mps_memory K n) (mps_memory K m)) as (s & Es & Hs).
    - apply layout_functional.
    - apply layout_injective.
    - intros [[c i] b]. symmetry. exact (alike_read K _ _ AL i b).
    - rewrite Es. f_equal. rewrite F2. cbn [m_modules m_input m_output m_bond m_feature m_periodic m_parallel m_label m_path m_use_bias m_fmap].
      transitivity (mkMps K N O D F per par lab path ub (m_modules m) (m_fmap m)); [|symmetry; exact F1]. rewrite Hf. f_equal.
      apply (mods_write_values K s 0 (m_modules n) (m_modules m) AL 0).
      + intros j x Hj. refine (Hs _ (0, j, false) _). apply mods_layout_in. exists j, x, false. split; [exact Hj|]. split; [discriminate|]. split; reflexivity.
      + intros j x Hj Hb. refine (Hs _ (0, j, true) _). apply mods_layout_in. exists j, x, true. split; [exact Hj|]. split; [intros _; exact Hb|]. split; reflexivity.
  Qed.

  Theorem C108_ti O D F par fe fe' std std' ub fb over rnd rnd' m0 n0 m n :
    ti_init K O D F par fe std ub fb over rnd = Ok m0 -> ti_init K O D F par fe' std' ub fb over rnd' = Ok n0 ->
    ti_trained m0 m -> ti_trained n0 n -> t_fmap n = t_fmap m ->
    ti_load K n (ti_state_dict K m) = (m, Ok tt).
  Proof.
    intros E1 E2 T1 T2 Hf. pose proof (P_TiMps.ti_init_built _ _ _ _ _ _ _ _ _ _ _ _ _ E1 T1) as B1. pose proof (P_TiMps.ti_init_built _ _ _ _ _ _ _ _ _ _ _ _ _ E2 T2) as B2.
    clear E1 E2 T1 T2. destruct B1 as [a1 a2 a3 a4 a5 a6 a7 a8 a9 a10]. destruct B2 as [b1 b2 b3 b4 b5 b6 b7 b8 b9 b10].
    assert (L : ti_layout K m = ti_layout K n).
    { unfold ti_layout. destruct ub; [destruct a10 as (x & -> & _); destruct b10 as (y & -> & _); reflexivity|]. rewrite a10, b10. reflexivity. }
    unfold ti_load, ti_state_dict. rewrite L.
    destruct (load_same K (ti_layout K n) (ti_memory K n) (ti_memory K m)) as (s & Es & Hs).
    - unfold ti_layout. destruct (t_bias n); intros k p q H1 H2; cbn in H1, H2; intuition congruence.
    - unfold ti_layout. destruct (t_bias n); intros k p q H1 H2; cbn in H1, H2; intuition congruence.
    - intros [[c i] b]. cbn [ti_memory]. destruct b; [destruct ub; [destruct a10 as (x & -> & Hx & _); destruct b10 as (y & -> & Hy & _); congruence|rewrite a10, b10; reflexivity]|].
      destruct (c =? 0); [congruence|]. destruct (c =? 1); congruence.
    - rewrite Es. f_equal. destruct m as [m1 m2 m3 m4 m5 m6 m7 m8 m9 m10 m11]. cbn [t_output t_bond t_feature t_parallel t_use_bias t_fixed_bias t_core t_vec t_mat t_bias t_fmap] in *.
      f_equal; try congruence.
      + refine (Hs [PN "core_tensor"] (0, 0, false) _). left. reflexivity.
      + refine (Hs [PN "init_vector"; PN "vec"] (1, 0, false) _). unfold ti_layout. apply in_or_app. right. left. reflexivity.
      + refine (Hs [PN "terminal_mat"; PN "mat"] (2, 0, false) _). unfold ti_layout. apply in_or_app. right. right. left. reflexivity.
      + destruct ub; [|rewrite a10, b10; reflexivity]. destruct a10 as (x & Hx & _). destruct b10 as (y & Hy & _). rewrite Hy, Hx. f_equal.
        rewrite (Hs [PN "bias_mat"] (0, 0, true)); [unfold ti_memory; cbn [t_bias]; rewrite Hx; reflexivity|].
        unfold ti_layout. rewrite Hy. right. left. reflexivity.
  Qed.
End Mps.

(** ** the adaptive mode *)
Section Adaptive.
  Notation K := R_cring.
  Notation T := (tensor R_ops).
  Notation alike := (alike R_cring).
  Variable svd : T -> T * T * T.

  (** *** two models built with the same arguments *)
  Lemma kinds_alike D F O l : Forall (wf K D F O) l -> forall l', Forall (wf K D F O) l' -> kinds K l = kinds K l' ->
    Forall (fun m : module K => match m with InputRegion _ _ _ => False | _ => True end) l -> Forall2 alike l l'.
  Proof.
    induction 1 as [|m l W _ IH]; intros [|m' l'] W' E NR; cbn [AdMerge.kinds map] in E; try discriminate E; [constructor|].
    injection E as E1 E2. inversion W'; subst. inversion NR; subst. constructor; [|apply IH; assumption].
    unfold wf in *. destruct m, m'; try discriminate E1; try (exfalso; assumption); cbn [wf_mod kind_of] in *.
    - constructor. congruence.
    - constructor. congruence.
    - destruct W as (a & _ & Ha). match goal with X : exists n, _ /\ shp t0 = _ |- _ => destruct X as (b & _ & Hb) end. injection E1 as E1. pose proof (f_equal (fun s => nth 0 s 0) Ha) as Xa. pose proof (f_equal (fun s => nth 0 s 0) Hb) as Xb. cbn [nth] in Xa, Xb. unfold size in E1. assert (Y : a = b) by exact (eq_trans (eq_sym Xa) (eq_trans E1 Xb)). clear Xa Xb. constructor. exact (eq_trans Ha (eq_trans (f_equal (fun z => [z; D; D; F; F]) Y) (eq_sym Hb))).
    - injection E1 as ->. constructor. congruence.
  Qed.
  Lemma merged_alike D F O o p q l l' : o < 2 -> 1 < p + q -> merged_list D F O o p q l -> merged_list D F O o p q l' -> Forall2 alike l l'.
  Proof.
    intros Ho Hn H H'. apply (kinds_alike D F O); [apply H|apply H'| |apply (merged_no_region D F O o p q l Ho Hn H)]. destruct H as [_ ->]. destruct H' as [_ ->]. reflexivity.
  Qed.
  (** the first module is a pair for offset 0 and a single core for offset 1 *)
  Lemma first_shapes D F O p q l l' : 1 < p + q -> merged_list D F O 0 p q l -> merged_list D F O 1 p q l' ->
    exists m m' r r', l = m :: r /\ l' = m' :: r' /\ ndim (mod_tensor m) > 3 /\ ndim (mod_tensor m') = 3.
  Proof.
    intros Hn [W E] [W' E']. destruct (mk_facts 0 p q ltac:(lia) Hn) as (A & L & _). destruct (mk_facts 1 p q ltac:(lia) Hn) as (A' & L' & _ & _ & _).
    rewrite <- E in A, L. rewrite <- E' in A', L'. change (bit 0) with false in A. change (bit 1) with true in A'.
    destruct l as [|m r]; [cbn in L; lia|]. destruct l' as [|m' r']; [cbn in L'; lia|]. exists m, m', r, r'. do 2 (split; [reflexivity|]).
    assert (X : wf_mod K D F O m) by (inversion W; assumption). assert (X' : wf_mod K D F O m') by (inversion W'; assumption). clear W W'. unfold ndim. destruct r as [|x r]; [cbn in L; lia|]. destruct r' as [|x' r']; [cbn in L'; lia|]. split.
    - destruct m; cbn in A |- *.
      + destruct A.
      + destruct A as [[A|A] _]; [contradiction A; reflexivity|discriminate A].
      + destruct A as [[A|A] _]; [contradiction A; reflexivity|discriminate A].
      + destruct X as (n & _ & X). pose proof (f_equal (@List.length nat) X) as Y. cbn in Y |- *. lia.
      + pose proof (f_equal (@List.length nat) X) as Y. cbn in Y |- *. lia.
    - destruct m'; cbn in A' |- *.
      + destruct A'.
      + exact (f_equal (@List.length nat) X').
      + exact (f_equal (@List.length nat) X').
      + destruct A' as [A' _]. discriminate A'.
      + destruct A' as [A' _]. discriminate A'.
  Qed.

  (** *** the keys *)
  Definition lists_layout (m : ad_mps) : layout :=
    mods_layout K (list_key "module_list_0") 0 0 (g_list0 (a_reg m)) ++ mods_layout K (list_key "module_list_1") 1 0 (g_list1 (a_reg m)).
  Lemma ad_layout_eq m : ad_layout m = mods_layout K (list_key "module_list") (g_offset (a_reg m)) 0 (g_active (a_reg m)) ++ lists_layout m.
  Proof. reflexivity. Qed.
  Ltac inlay H := apply mods_layout_in in H as (?j & ?x & ?b & _ & _ & ?H & ?H); subst.
  Lemma ad_functional m : functional (ad_layout m).
  Proof.
    intros k p q H1 H2. unfold ad_layout in *. rewrite !in_app_iff in H1, H2.
    destruct H1 as [H1|[H1|H1]]; destruct H2 as [H2|[H2|H2]]; apply mods_layout_in in H1 as (j & x & b & _ & _ & -> & ->); apply mods_layout_in in H2 as (j' & x' & b' & _ & _ & E & ->);
      cbn [list_key app] in E; try discriminate E; injection E as E E'; (rewrite E; destruct b, b'; try reflexivity; discriminate E').
  Qed.
  Lemma lists_injective m : injective (lists_layout m).
  Proof.
    intros k k' p H1 H2. unfold lists_layout in *. rewrite !in_app_iff in H1, H2.
    destruct H1 as [H1|H1]; destruct H2 as [H2|H2]; apply mods_layout_in in H1 as (j & x & b & _ & _ & -> & ->); apply mods_layout_in in H2 as (j' & x' & b' & _ & _ & -> & E);
      try discriminate E; injection E as E1 E2; rewrite E1, E2; reflexivity.
  Qed.

  Variables (N O D F : nat) (per par : bool) (label : option Z) (path : mpath) (std std' cutoff : R) (thr : Z) (rnd rnd' : nat -> list nat -> R) (m0 n0 m n : ad_mps).
  Hypotheses (Hm0 : ad_init N O D F per par label path std cutoff thr rnd = Ok m0) (Hn0 : ad_init N O D F per par label path std' cutoff thr rnd' = Ok n0).
  Hypotheses (HN : 1 <= N) (HD : 0 < D) (Hm : after svd m0 m) (Hn : after svd n0 n).

  (** the model that the receiver has become: the parameters are those of the saved model, everything else is its own *)
  Definition with_parameters_of (m n : ad_mps) : ad_mps :=
    mkAd (a_cfg n) (mkReg (g_list0 (a_reg m)) (g_list1 (a_reg m)) (offset n) (g_counter (a_reg n)) (g_threshold (a_reg n)) (g_cutoff (a_reg n))) (a_bonds n) (a_svs n).
  Theorem C108_adaptive_exact :
    ad_load n (ad_state_dict m) = (with_parameters_of m n, if offset m =? offset n then Ok tt else Err RuntimeError).
  Proof.
    pose proof (invm svd N O D F per par label path std cutoff thr rnd m0 m Hm0 HN HD Hm) as Im.
    pose proof (invm svd N O D F per par label path std' cutoff thr rnd' n0 n Hn0 HN HD Hn) as In_.
    pose proof (two N O D F per par label path std cutoff thr rnd m0 Hm0 HN HD) as H2.
    set (p := label_number N label) in *. assert (Hpq : 1 < p + (N - p)) by (pose proof (i_le _ _ _ _ _ _ Im); lia).
    destruct (i_reg _ _ _ _ _ _ Im) as [Om M0 M1]. destruct (i_reg _ _ _ _ _ _ In_) as [On N0 N1].
    pose proof (merged_alike D F O 0 p (N - p) _ _ ltac:(lia) Hpq N0 M0) as A0. pose proof (merged_alike D F O 1 p (N - p) _ _ ltac:(lia) Hpq N1 M1) as A1.
    assert (AL : forall o, Forall2 alike (g_list (a_reg n) o) (g_list (a_reg m) o)) by (intros o; unfold g_list; destruct (o =? 0); assumption).
    assert (LL : lists_layout m = lists_layout n).
    { unfold lists_layout. rewrite <- (alike_layout K _ _ _ _ A0), <- (alike_layout K _ _ _ _ A1). reflexivity. }
    assert (Sh : forall q, shp (ad_memory m q) = shp (ad_memory n q)).
    { intros [[c i] b]. cbn [ad_memory]. symmetry. apply (alike_read K _ _ (AL c)). }
    set (d := ad_state_dict m).
    assert (Lk : forall k q, In (k, q) (ad_layout m) -> lookup k d = Some (ad_memory m q)) by (intros k q Hin; apply lookup_saved; [apply ad_functional|exact Hin]).
    assert (Lk2 : forall k q, In (k, q) (lists_layout n) -> lookup k d = Some (ad_memory m q)).
    { intros k q Hin. apply Lk. rewrite ad_layout_eq, LL. apply in_or_app. right. exact Hin. }
    unfold ad_load, load. rewrite ad_layout_eq, fold_left_app.
    set (first := mods_layout K (list_key "module_list") (g_offset (a_reg n)) 0 (g_active (a_reg n))).
    set (s1 := fold_left (load_entry d) first (ad_memory n, false)).
    assert (S1 : forall q, shp (fst s1 q) = shp (ad_memory n q)) by (intros q; unfold s1; rewrite fold_shape; reflexivity).
    assert (Mt : matching K d (lists_layout n) (fst s1)).
    { intros k q Hin. exists (ad_memory m q). split; [apply Lk2; exact Hin|]. rewrite S1. apply Sh. }
    pose proof (fold_good K d (lists_layout n) s1 Mt) as Bad.
    assert (Val : forall k q, In (k, q) (lists_layout n) -> fst (fold_left (load_entry d) (lists_layout n) s1) q = ad_memory m q).
    { intros k q Hin. apply (fold_value K d (lists_layout n) s1 k); [apply lists_injective|exact Mt|exact Hin|apply Lk2; exact Hin]. }
    set (s2 := fold_left (load_entry d) (lists_layout n) s1) in *. destruct s2 as [st bad]. cbn [fst snd] in Bad, Val. subst bad.
    f_equal.
    - unfold with_parameters_of. f_equal. f_equal.
      + apply (mods_write_values K st 0 _ _ A0 0).
        * intros j x Hj. refine (Val (list_key "module_list_0" ++ [PI j; PN "tensor"]) (0, j, false) _). apply in_or_app. left. apply mods_layout_in. exists j, x, false. split; [exact Hj|]. split; [discriminate|]. split; reflexivity.
        * intros j x Hj Hb. refine (Val (list_key "module_list_0" ++ [PI j; PN "bias_mat"]) (0, j, true) _). apply in_or_app. left. apply mods_layout_in. exists j, x, true. split; [exact Hj|]. split; [intros _; exact Hb|]. split; reflexivity.
      + apply (mods_write_values K st 1 _ _ A1 0).
        * intros j x Hj. refine (Val (list_key "module_list_1" ++ [PI j; PN "tensor"]) (1, j, false) _). apply in_or_app. right. apply mods_layout_in. exists j, x, false. split; [exact Hj|]. split; [discriminate|]. split; reflexivity.
        * intros j x Hj Hb. refine (Val (list_key "module_list_1" ++ [PI j; PN "bias_mat"]) (1, j, true) _). apply in_or_app. right. apply mods_layout_in. exists j, x, true. split; [exact Hj|]. split; [intros _; exact Hb|]. split; reflexivity.
    - unfold offset. destruct (Nat.eqb_spec (g_offset (a_reg m)) (g_offset (a_reg n))) as [E|E].
      + assert (L : ad_layout m = ad_layout n).
        { rewrite !ad_layout_eq, LL. f_equal. rewrite E. unfold g_active. rewrite E. symmetry. apply (alike_layout K _ _ _ _ (AL _)). }
        replace (snd s1) with false.
        * cbn [orb]. replace (existsb _ d) with false; [reflexivity|]. symmetry. destruct (existsb _ d) eqn:Ex; [|reflexivity].
          apply existsb_exists in Ex as ([k t] & Hin & Hk). unfold d, ad_state_dict, state_dict in Hin. apply in_map_iff in Hin as ([k' q] & H & Hin). injection H as <- <-.
          cbn [fst] in Hk. rewrite L in Hin. rewrite ad_layout_eq in Hin. pose proof (has_key_in _ _ _ Hin) as Y. fold first in Y. rewrite Y in Hk. discriminate Hk.
        * symmetry. unfold s1. rewrite (fold_good K d first (ad_memory n, false)); [reflexivity|]. cbn [fst]. intros k q Hin. exists (ad_memory m q). split; [|apply Sh].
          apply Lk. rewrite L, ad_layout_eq. apply in_or_app. left. exact Hin.
      + replace (snd s1) with true; [reflexivity|]. symmetry.
        assert (X : exists a b r r', g_active (a_reg m) = a :: r /\ g_active (a_reg n) = b :: r' /\ shp (mod_tensor a) <> shp (mod_tensor b)).
        { unfold g_active. destruct (g_offset (a_reg m)) as [|[|o]]; destruct (g_offset (a_reg n)) as [|[|o']]; try lia; unfold g_list; cbn [Nat.eqb].
          - destruct (first_shapes D F O p (N - p) _ _ Hpq M0 N1) as (a & b & r & r' & E1 & E2 & S2 & S3). exists a, b, r, r'. do 2 (split; [assumption|]). unfold ndim in *. intros Z. rewrite Z in S2. lia.
          - destruct (first_shapes D F O p (N - p) _ _ Hpq N0 M1) as (a & b & r & r' & E1 & E2 & S2 & S3). exists b, a, r', r. do 2 (split; [assumption|]). unfold ndim in *. intros Z. rewrite <- Z in S2. lia. }
        destruct X as (a & b & r & r' & Ea & Eb & Hne).
        apply (fold_mismatch K d first (ad_memory n, false) (list_key "module_list" ++ [PI 0; PN "tensor"]) (g_offset (a_reg n), 0, false) (mod_tensor a)).
        * unfold first. rewrite Eb. left. reflexivity.
        * rewrite (Lk _ (g_offset (a_reg m), 0, false)); [|rewrite ad_layout_eq, Ea; left; reflexivity]. cbn [ad_memory]. unfold mods_read. fold (g_active (a_reg m)). rewrite Ea. reflexivity.
        * cbn [fst ad_memory]. unfold mods_read. fold (g_active (a_reg n)). rewrite Eb. exact Hne.
  Qed.
  (** the model cannot be loaded into one with the other offset, for example a new one after an odd number of flips *)
  Theorem C108_adaptive_refuted : offset m <> offset n -> snd (ad_load n (ad_state_dict m)) = Err RuntimeError.
  Proof. intros H. rewrite C108_adaptive_exact. apply Nat.eqb_neq in H. rewrite H. reflexivity. Qed.

  (** with the same offset the parameters are restored.  The counter of the inputs, the bond dimensions and the singular
      values are those of the receiver: if both models are about to flip, or both are not, the next call returns the same *)
  Lemma after_cfg a0 a : 0 < D -> 1 < N -> inv N O D F (label_number N label) a0 -> after svd a0 a ->
    exists f, a_cfg a = mkMps K (m_input (a_cfg a0)) (m_output (a_cfg a0)) (m_bond (a_cfg a0)) (m_feature (a_cfg a0)) (m_periodic (a_cfg a0)) (m_parallel (a_cfg a0))
      (m_label (a_cfg a0)) (m_path (a_cfg a0)) (m_use_bias (a_cfg a0)) (m_modules (a_cfg a0)) f.
  Proof.
    clear. intros HD HN Hi H. induction H as [|a a' Ha IH Ev]; [exists (m_fmap (a_cfg a0)); destruct (a_cfg a0); reflexivity|].
    destruct IH as (f & E). destruct (after_keeps svd N O D F _ a0 a HD HN Hi Ha) as (Ia & _).
    destruct Ev as [a l0 l1 R0 R1|a x g r a' Ec|a f' a' Er].
    - exists f. exact E.
    - destruct (call_facts svd N O D F _ a x g r a' HD HN Ia Ec) as (_ & Ecfg & _). exists f. rewrite Ecfg. exact E.
    - unfold ad_register in Er. destruct (mps_register K (a_cfg a) f') as [c|] eqn:Ec; cbn [rbind] in Er; [|discriminate Er]. injection Er as <-.
      unfold mps_register in Ec. destruct (match f' with Some g => _ | None => _ end) as [[]|]; cbn [rbind] in Ec; [|discriminate Ec]. injection Ec as <-.
      exists f'. cbn [a_cfg]. rewrite E. reflexivity.
  Qed.
  Lemma init_cfg sd_ rn_ a0 : ad_init N O D F per par label path sd_ cutoff thr rn_ = Ok a0 ->
    a_cfg a0 = mkMps K N O D F per par (label_number N label) path false [] None.
  Proof.
    clear. unfold ad_init, label_of. set (l := match label with None => _ | Some z => z end).
    assert (El : Z.to_nat l = label_number N label) by (unfold l, label_number; destruct label; [reflexivity|]; apply Nat2Z.id).
    destruct (_ && _); cbn [assert_ rbind]; [|discriminate]. destruct (build_modules _ _ _ _ _ _ _ _ _ _) as [l1|]; cbn [rbind]; [|discriminate].
    destruct (region_init _ _ _) as [g|]; cbn [rbind]; [|discriminate]. destruct (_ =? N); cbn [assert_ rbind]; [|discriminate].
    destruct (check_path N path) as [[]|]; cbn [rbind]; [|discriminate]. intros E. injection E as <-. cbn [a_cfg]. rewrite El. reflexivity.
  Qed.
  Lemma update_decides d new : forall svs ob ob' os os', List.length ob = List.length ob' -> List.length os = List.length os' ->
    (exists p p', update_each d new svs ob os = Ok p /\ update_each d new svs ob' os' = Ok p') \/
    (exists e, update_each d new svs ob os = Err e /\ update_each d new svs ob' os' = Err e).
  Proof.
    clear. induction new as [|x new IH]; intros svs ob ob' os os' L1 L2; [left; do 2 eexists; split; reflexivity|].
    destruct svs as [|s svs]; [left; do 2 eexists; split; reflexivity|].
    destruct ob as [|b ob]; destruct ob' as [|b' ob']; try discriminate L1; [left; do 2 eexists; split; reflexivity|].
    destruct os as [|v os]; destruct os' as [|v' os']; try discriminate L2; [left; do 2 eexists; split; reflexivity|].
    injection L1 as L1. injection L2 as L2. cbn [update_each]. specialize (IH svs ob ob' os os' L1 L2).
    destruct x as [x|]; [destruct s as [w|]; [destruct (list_eqb (shp w) [d])|]|]; cbn [rbind]; try (right; eexists; split; reflexivity);
    (destruct IH as [(p & p' & -> & ->)|(e & -> & ->)]; cbn [rbind]; [left; do 2 eexists; split; reflexivity|right; eexists; split; reflexivity]).
  Qed.
  Theorem C108_adaptive_partial : offset m = offset n -> m_fmap (a_cfg n) = m_fmap (a_cfg m) -> (flip_due m <-> flip_due n) ->
    exists n', ad_load n (ad_state_dict m) = (n', Ok tt) /\ forall x g, fst (ad_forward svd n' x g) = fst (ad_forward svd m x g).
  Proof.
    intros Ho Hf Hd. exists (with_parameters_of m n). split; [rewrite C108_adaptive_exact, Ho, Nat.eqb_refl; reflexivity|].
    pose proof (two N O D F per par label path std cutoff thr rnd m0 Hm0 HN HD) as H2.
    pose proof (invm svd N O D F per par label path std cutoff thr rnd m0 m Hm0 HN HD Hm) as Im.
    pose proof (invm svd N O D F per par label path std' cutoff thr rnd' n0 n Hn0 HN HD Hn) as In_.
    assert (C : a_cfg n = a_cfg m).
    { destruct (after_cfg m0 m HD H2 (inv0 N O D F per par label path std cutoff thr rnd m0 Hm0 HN HD) Hm) as (f & E).
      destruct (after_cfg n0 n HD H2 (inv0 N O D F per par label path std' cutoff thr rnd' n0 Hn0 HN HD) Hn) as (f' & E').
      rewrite (init_cfg _ _ _ Hm0) in E. rewrite (init_cfg _ _ _ Hn0) in E'. rewrite E, E' in Hf. cbn [m_fmap] in Hf. rewrite E, E', Hf. reflexivity. }
    assert (Th : g_threshold (a_reg n) = g_threshold (a_reg m) /\ g_cutoff (a_reg n) = g_cutoff (a_reg m)).
    { destruct (after_keeps svd N O D F _ m0 m HD H2 (inv0 N O D F per par label path std cutoff thr rnd m0 Hm0 HN HD) Hm) as (_ & A & B & _).
      destruct (after_keeps svd N O D F _ n0 n HD H2 (inv0 N O D F per par label path std' cutoff thr rnd' n0 Hn0 HN HD) Hn) as (_ & A' & B' & _).
      destruct (start N O D F per par label path std cutoff thr rnd m0 Hm0 HN HD) as (_ & _ & S1 & S2 & _).
      destruct (start N O D F per par label path std' cutoff thr rnd' n0 Hn0 HN HD) as (_ & _ & S3 & S4 & _). split; congruence. }
    destruct Th as [Th Tc].
    assert (Due : (g_threshold (a_reg m) <=? g_counter (a_reg m))%Z = (g_threshold (a_reg n) <=? g_counter (a_reg n))%Z).
    { unfold flip_due in Hd. destruct (Z.leb_spec (g_threshold (a_reg m)) (g_counter (a_reg m))); destruct (Z.leb_spec (g_threshold (a_reg n)) (g_counter (a_reg n))); try reflexivity; exfalso; intuition lia. }
    intros x g. unfold ad_forward. cbn [a_cfg with_parameters_of]. rewrite C. destruct (let* x1 := route K (m_path (a_cfg m)) x in mps_embed K (a_cfg m) x1) as [x2|]; [|reflexivity].
    unfold region_step. cbn [a_reg with_parameters_of g_threshold g_counter g_cutoff g_offset g_list0 g_list1]. rewrite <- Due. unfold g_active. cbn [g_offset]. rewrite Tc, <- Ho. unfold offset.
    assert (GL : forall o a b c e, g_list (mkReg (g_list0 (a_reg m)) (g_list1 (a_reg m)) a b c e) o = g_list (a_reg m) o) by reflexivity. rewrite !GL.
    destruct (g_threshold (a_reg m) <=? g_counter (a_reg m))%Z.
    - destruct (unmerge_mods svd (g_cutoff (a_reg m)) (g_list (a_reg m) (g_offset (a_reg m)))) as [[[ms bonds] svs]|]; cbn [rbind]; [|reflexivity].
      set (o := (g_offset (a_reg m) + 1) mod 2). destruct (merge_mods K o ms) as [new|]; cbn [rbind]; [|reflexivity]. rewrite ?GL.
      destruct (store K (g_list (a_reg m) o) new) as [new'|]; cbn [rbind]; [|reflexivity].
      assert (GN : forall c1 c2 c3 old, g_list (if o =? 0 then mkReg new' old o c1 c2 c3 else mkReg old new' o c1 c2 c3) (g_offset (if o =? 0 then mkReg new' old o c1 c2 c3 else mkReg old new' o c1 c2 c3)) = new').
      { intros. unfold g_list. destruct (o =? 0) eqn:Eo; cbn [g_offset g_list0 g_list1]; rewrite Eo; reflexivity. }
      rewrite !GN.
      destruct (region_forward K new' (m_periodic (a_cfg m)) (m_parallel (a_cfg m)) x2 g) as [[y|e] g']; [|reflexivity].
      unfold update_lists. cbn [a_bonds a_svs a_cfg with_parameters_of]. rewrite ?C. destruct (i_bonds _ _ _ _ _ _ Im) as [Lb _]. destruct (i_bonds _ _ _ _ _ _ In_) as [Lb' _].
      destruct (i_svs _ _ _ _ _ _ Im) as [Ls _]. destruct (i_svs _ _ _ _ _ _ In_) as [Ls' _]. rewrite Lb, Lb'.
      destruct (List.length bonds =? N + 2); cbn [assert_ rbind]; [|reflexivity]. destruct (List.length bonds =? List.length svs); cbn [assert_ rbind]; [|reflexivity].
      destruct (update_decides (m_bond (a_cfg m)) bonds svs (a_bonds n) (a_bonds m) (a_svs n) (a_svs m) ltac:(congruence) ltac:(congruence)) as [([] & [] & -> & ->)|(e & -> & ->)]; reflexivity.
    - cbn [g_offset]. rewrite ?GL. destruct (region_forward K (g_list (a_reg m) (g_offset (a_reg m))) (m_periodic (a_cfg m)) (m_parallel (a_cfg m)) x2 g) as [[y|e] g']; reflexivity.
  Qed.
End Adaptive.

(** A checkpoint made after an odd number of flips cannot be loaded into a new model. *)
Theorem C108_fresh_refuted svd N O D F per par label path std std' cutoff thr rnd rnd' m0 n0 seen flips m :
  ad_init N O D F per par label path std cutoff thr rnd = Ok m0 -> ad_init N O D F per par label path std' cutoff thr rnd' = Ok n0 ->
  1 <= N -> 0 < D -> run svd m0 seen flips m ->
  snd (ad_load n0 (ad_state_dict m)) = if Nat.even flips then Ok tt else Err RuntimeError.
Proof.
  intros E1 E2 HN HD Hr.
  pose proof (run_after svd m0 m _ _ Hr) as Ha.
  rewrite (C108_adaptive_exact svd N O D F per par label path std std' cutoff thr rnd rnd' m0 n0 m n0 E1 E2 HN HD Ha (After_0 svd n0)). cbn [snd].
  destruct (C52_schedule svd N O D F per par label path std cutoff thr rnd m0 m E1 HN HD _ _ Hr) as [_ ->].
  destruct (start N O D F per par label path std' cutoff thr rnd' n0 E2 HN HD) as [-> _].
  destruct (Nat.even flips) eqn:E.
  - apply Nat.even_spec in E as (h & ->). rewrite Nat.mul_comm, Nat.mod_mul by lia. reflexivity.
  - assert (E' : Nat.odd flips = true) by (unfold Nat.odd; rewrite E; reflexivity). apply Nat.odd_spec in E' as (h & ->). rewrite Nat.add_comm, Nat.mul_comm, Nat.mod_add by lia. reflexivity.
Qed.

(** ** ProbMPS and ProbUnifMPS: the parameters are restored, the embedding is the receiver's *)
Section Prob.
  Variable K : numfield.
  Theorem C108_prob (m n : pmps K) L d D : shapes_fixed K m L d D /\ shapes_fixed K n L d D \/ shapes_unif K m d D /\ shapes_unif K n d D ->
    (pm_bias K m = None <-> pm_bias K n = None) ->
    p_load K n (p_state_dict K m) = (mkP K (pm_core K m) (pm_edge K m) (pm_bias K m) (pm_emb K n), Ok tt).
  Proof.
    intros Hs Hb.
    assert (S : shp (pm_core K m) = shp (pm_core K n) /\ shp (pm_edge K m) = shp (pm_edge K n) /\
      match pm_bias K m, pm_bias K n with Some a, Some b => shp a = shp b | None, None => True | _, _ => False end).
    { destruct Hs as [[(_ & _ & _ & A1 & A2 & A3) (_ & _ & _ & B1 & B2 & B3)]|[(_ & _ & A1 & A2 & A3) (_ & _ & B1 & B2 & B3)]];
      (split; [congruence|]; split; [congruence|]; destruct (pm_bias K m), (pm_bias K n); try exact Logic.I; [congruence|destruct Hb as [_ Hb]; discriminate (Hb eq_refl)|destruct Hb as [Hb _]; discriminate (Hb eq_refl)]). }
    clear Hs Hb. destruct S as (S1 & S2 & S3).
    assert (Ll : p_layout K m = p_layout K n) by (unfold p_layout; destruct (pm_bias K m), (pm_bias K n); try (exfalso; exact S3); reflexivity).
    unfold p_load, p_state_dict. rewrite Ll.
    destruct (load_same K (p_layout K n) (p_memory K n) (p_memory K m)) as (s & Es & Hs).
    - unfold p_layout. destruct (pm_bias K n); intros k p q H1 H2; cbn in H1, H2; intuition congruence.
    - unfold p_layout. destruct (pm_bias K n); intros k p q H1 H2; cbn in H1, H2; intuition congruence.
    - intros [[c i] b]. cbn [p_memory]. destruct b; [destruct (pm_bias K m), (pm_bias K n); try (exfalso; exact S3); [exact S3|reflexivity]|]. destruct (c =? 0); assumption.
    - rewrite Es. f_equal. f_equal.
      + refine (Hs [PN "core_tensors"] (0, 0, false) _). left. reflexivity.
      + refine (Hs [PN "edge_vecs"] (1, 0, false) _). right. left. reflexivity.
      + destruct (pm_bias K n) as [b|] eqn:Eb; [|destruct (pm_bias K m); [destruct S3|reflexivity]].
        destruct (pm_bias K m) as [a|] eqn:Ea; [|destruct S3]. f_equal. rewrite (Hs [PN "bias_mat"] (0, 0, true)); [unfold p_memory; rewrite Ea; reflexivity|].
        unfold p_layout. rewrite Eb. right. right. left. reflexivity.
  Qed.
  Theorem C108_prob_same (m n : pmps K) L d D : shapes_fixed K m L d D /\ shapes_fixed K n L d D \/ shapes_unif K m d D /\ shapes_unif K n d D ->
    (pm_bias K m = None <-> pm_bias K n = None) -> pm_emb K n = pm_emb K m -> p_load K n (p_state_dict K m) = (m, Ok tt).
  Proof. intros Hs Hb He. rewrite (C108_prob m n L d D Hs Hb), He. destruct m; reflexivity. Qed.
End Prob.

(** ** the hypotheses are met *)
(** six inputs, one flip: the saved model cannot be loaded into a new one, the model before the flip can *)
Example C108_adaptive_met : exists m0 m m', ad_init 6 1 2 1 false true None PNone (1/10) (1/10) 0 (fun _ _ => 0%R) = Ok m0 /\
  after const_svd m0 m /\ after const_svd m0 m' /\ offset m = offset m0 /\ offset m' <> offset m0 /\
  ad_load m0 (ad_state_dict m) = (m, Ok tt) /\ ad_load m0 (ad_state_dict m') = (with_parameters_of m' m0, Err RuntimeError).
Proof.
  destruct C51_default_six as (m0 & x & y & m' & E & Ha & _ & _ & _ & _ & Hf & Ho). exists m0, (unit_model m0), m'.
  assert (Ha' : after const_svd m0 m') by (eapply After_S; [exact Ha|eapply Ev_call; exact Hf]).
  destruct (start 6 1 2 1 false true None PNone (1/10)%R (1/10)%R 0%Z _ m0 E ltac:(lia) ltac:(lia)) as [So _].
  split; [exact E|]. split; [exact Ha|]. split; [exact Ha'|]. split; [reflexivity|]. split; [rewrite Ho, So; discriminate|].
  split.
  - rewrite (C108_adaptive_exact const_svd 6 1 2 1 false true None PNone (1/10)%R (1/10)%R (1/10)%R 0%Z _ _ m0 m0 (unit_model m0) m0 E E ltac:(lia) ltac:(lia) Ha (After_0 _ _)).
    change (offset (unit_model m0)) with (offset m0). rewrite Nat.eqb_refl. reflexivity.
  - rewrite (C108_adaptive_exact const_svd 6 1 2 1 false true None PNone (1/10)%R (1/10)%R (1/10)%R 0%Z _ _ m0 m0 m' m0 E E ltac:(lia) ltac:(lia) Ha' (After_0 _ _)).
    rewrite Ho, So. reflexivity.
Qed.
(** two models with different random numbers *)
Example C108_mps_met : exists m n, mps_init R_cring 6 1 2 1 false true None PNone (1/10)%R true (fun _ _ => 1%R) = Ok m /\ trained m m /\
  mps_init R_cring 6 1 2 1 false true None PNone (1/5)%R true (fun _ _ => 2%R) = Ok n /\ trained n n /\ m_fmap n = m_fmap m /\ mps_load R_cring n (mps_state_dict R_cring m) = (m, Ok tt).
Proof.
  destruct (P_Mps.C34_constructor R_cring 6 1 2 1 false true None PNone (1/10)%R true (fun _ _ => 1%R) Logic.I) as (m & E & T & _); [left; left; reflexivity|].
  destruct (P_Mps.C34_constructor R_cring 6 1 2 1 false true None PNone (1/5)%R true (fun _ _ => 2%R) Logic.I) as (n & E' & T' & _); [left; left; reflexivity|].
  assert (F : m_fmap n = m_fmap m).
  { assert (G : forall std rnd k, mps_init R_cring 6 1 2 1 false true None PNone std true rnd = Ok k -> m_fmap k = None).
    { clear. intros std rnd k. unfold mps_init. destruct (label_of 6 None); cbn [rbind]; [|discriminate]. destruct (build_modules _ _ _ _ _ _ _ _ _ _) as [l|]; cbn [rbind]; [|discriminate].
      destruct (_ =? 6); cbn [assert_ rbind]; [|discriminate]. destruct (check_path 6 PNone) as [[]|]; cbn [rbind]; [|discriminate]. intros E. injection E as <-. reflexivity. }
    rewrite (G _ _ _ E), (G _ _ _ E'). reflexivity. }
  exists m, n. do 5 (split; [assumption|]). exact (C108_mps _ _ _ _ _ _ _ _ _ _ _ _ _ _ _ _ _ _ E E' T T' F).
Qed.
Example C108_ti_met : exists m n, ti_init R_cring 1 2 2 true false (1/10)%R true true (fun _ x => x) (fun _ _ => 1%R) = Ok m /\ ti_trained m m /\
  ti_init R_cring 1 2 2 true false (1/10)%R true true (fun _ x => x) (fun _ _ => 2%R) = Ok n /\ ti_trained n n /\ t_fmap n = t_fmap m.
Proof.
  destruct (P_TiMps.C38_constructor R_cring 1 2 2 true false (1/10)%R true true (fun _ x => x) (fun _ _ => 1%R) ltac:(discriminate)) as (m & E & T & _).
  destruct (P_TiMps.C38_constructor R_cring 1 2 2 true false (1/10)%R true true (fun _ x => x) (fun _ _ => 2%R) ltac:(discriminate)) as (n & E' & T' & _).
  exists m, n. do 4 (split; [assumption|]).
  assert (G : forall rnd k, ti_init R_cring 1 2 2 true false (1/10)%R true true (fun _ x => x) rnd = Ok k -> t_fmap k = None).
  { clear. intros rnd k. unfold ti_init. destruct (init_tensor _ _ _ _ _ _); cbn [rbind]; [|discriminate]. match goal with |- context [if false && ?c then ?p else ?q] => destruct (if false && c then p else q) end; cbn [rbind]; [|discriminate].
    intros E. injection E as <-. reflexivity. }
  rewrite (G _ _ E), (G _ _ E'). reflexivity.
Qed.
Print Assumptions C108_mps.
Print Assumptions C108_ti.
Print Assumptions C108_prob.
Print Assumptions C108_prob_same.
Print Assumptions C108_adaptive_exact.
Print Assumptions C108_adaptive_refuted.
Print Assumptions C108_adaptive_partial.
Print Assumptions C108_fresh_refuted.
