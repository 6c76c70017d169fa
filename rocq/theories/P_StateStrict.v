(** * P_StateStrict: which checkpoints can be loaded (C108, strict=True) *)
From Coq Require Import Reals.
From Verif Require P_Mps P_TiMps.
From Verif Require Import Base Scalars Tensor Utils UtilsSpec UtilsProofs TorchMps TmSpec TmProofs TmFinal Adaptive
  MpsBase Embeddings ProbMps StateDict StateProofs P_State.

Lemma nth_error_ext_all {A} (l : list A) : forall l', (forall j, nth_error l j = nth_error l' j) -> l = l'.
Proof.
  induction l as [|x l IH]; intros [|y l'] H; [reflexivity|discriminate (H 0)|discriminate (H 0)|].
  pose proof (H 0) as H0. injection H0 as ->. f_equal. apply IH. intros j. exact (H (S j)).
Qed.

Section Dict.
  Variable A : Type.
  Notation T := (tensor A).
  Lemma fold_missing (d : dict A) lay : forall s k p, In (k, p) lay -> lookup k d = None -> snd (fold_left (load_entry d) lay s) = true.
  Proof.
    induction lay as [|e lay IH]; intros s k p Hin Hl; [destruct Hin|]. cbn [fold_left]. destruct Hin as [->|Hin]; [|exact (IH _ k p Hin Hl)].
    apply fold_bad. unfold load_entry. cbn [fst]. rewrite Hl. reflexivity.
  Qed.
  Lemma load_ok lay (st : memory A) d : snd (load lay st d) = Ok tt -> matching A d lay st /\ forall k t, In (k, t) d -> exists p, In (k, p) lay.
  Proof.
    unfold load. destruct (fold_left (load_entry d) lay (st, false)) as [s b] eqn:E. cbn [snd]. destruct b; [discriminate|]. cbn [orb].
    destruct (existsb _ d) eqn:Ex; [discriminate|]. intros _. split.
    - intros k p Hin. destruct (lookup k d) as [t|] eqn:El.
      + exists t. split; [reflexivity|]. destruct (list_eq_dec Nat.eq_dec (shp t) (shp (st p))) as [|Hne]; [assumption|].
        pose proof (fold_mismatch A d lay (st, false) k p t Hin El Hne) as X. rewrite E in X. discriminate X.
      + pose proof (fold_missing d lay (st, false) k p Hin El) as X. rewrite E in X. discriminate X.
    - intros k t Hin. assert (Hk : has_key lay k = true).
      { destruct (has_key lay k) eqn:Hk; [reflexivity|]. assert (X : existsb (fun e => negb (has_key lay (fst e))) d = true) by (apply existsb_exists; exists (k, t); split; [exact Hin|cbn [fst]; rewrite Hk; reflexivity]). congruence. }
      apply existsb_exists in Hk as ([k' p] & Hp & Ek). cbn [fst] in Ek. apply key_eqb_true in Ek. subst k'. exists p. exact Hp.
  Qed.
  Lemma load_either lay (st : memory A) d : snd (load lay st d) = Ok tt \/ snd (load lay st d) = Err RuntimeError.
  Proof. unfold load. destruct (fold_left _ _ _) as [s b]. cbn [snd]. destruct (b || _); auto. Qed.
  (** the two objects have the same keys, with tensors of the same shapes *)
  Lemma load_saved lay (st : memory A) lay' st' : functional lay' -> snd (load lay st (state_dict lay' st')) = Ok tt ->
    (forall k p, In (k, p) lay -> exists q, In (k, q) lay' /\ shp (st p) = shp (st' q)) /\ (forall k q, In (k, q) lay' -> exists p, In (k, p) lay).
  Proof.
    intros Hf H. destruct (load_ok lay st _ H) as [Hm Hu]. split.
    - intros k p Hin. destruct (Hm k p Hin) as (t & El & Es).
      assert (G : forall l, lookup k (state_dict l st') = Some t -> exists q, In (k, q) l /\ t = st' q).
      { induction l as [|[k' q] l IH]; [discriminate|]. cbn [state_dict map lookup fst snd]. destruct (key_eqb k k') eqn:Ek.
        - intros X. injection X as <-. apply key_eqb_true in Ek. subst k'. exists q. split; [left; reflexivity|reflexivity].
        - intros X. destruct (IH X) as (q' & Hq & E). exists q'. split; [right; exact Hq|exact E]. }
      destruct (G lay' El) as (q & Hq & ->). exists q. split; [exact Hq|symmetry; exact Es].
    - intros k q Hin. apply (Hu k (st' q)). unfold state_dict. apply in_map_iff. exists (k, q). split; [reflexivity|exact Hin].
  Qed.
End Dict.

Section Mps.
  Variable K : cring.
  Notation mod_ := (module K).
  (** what the checkpoint shows of a module: whether it has an entry bias_mat, and the shapes of its entries *)
  Definition entry_of (m : mod_) : bool * list nat * list nat :=
    (has_bias K m, shp (mod_tensor m), match m with InputRegion _ _ (Some b) => shp b | _ => [0] end).
  Lemma alike_entries l l' : Forall2 (alike K) l l' -> map entry_of l = map entry_of l'.
  Proof.
    induction 1 as [|a b l l' H _ IH]; [reflexivity|]. cbn [map]. rewrite IH. f_equal. unfold entry_of. destruct H as [t t' ub b b' Ht Hb| | | |]; cbn [has_bias mod_tensor]; try congruence.
    rewrite Ht. destruct b, b'; try (exfalso; exact Hb); [rewrite Hb; reflexivity|reflexivity].
  Qed.
  Definition region_entries (n D F : nat) (ub : bool) : list (bool * list nat * list nat) :=
    match n with 0 => [] | _ => [(true, [n; D; D; F], if ub then [1; D; D] else [0])] end.
  Lemma init_entries N O D F per par label path std ub rnd m0 m : mps_init K N O D F per par label path std ub rnd = Ok m0 -> trained m0 m ->
    m_label m <= N /\ label_of N label = Ok (m_label m) /\
    map entry_of (m_modules m) = region_entries (m_label m) D F ub ++ [(false, [O; D; D], [0])] ++ region_entries (N - m_label m) D F ub.
  Proof.
    unfold mps_init. intros E [T Tm]. assert (El : forall lab, label_of N label = Ok lab -> lab <= N).
    { unfold label_of. intros lab. generalize (match label with None => Z.of_nat (N / 2) | Some z => z end). intros z. destruct ((0 <=? z)%Z && (z <=? Z.of_nat N)%Z) eqn:E0; cbn [assert_ rbind]; [|discriminate]. apply andb_prop in E0 as [X Y]. apply Z.leb_le in X, Y. intros Z0. injection Z0 as <-. lia. }
    destruct (label_of N label) as [lab|]; cbn [rbind] in E; [|discriminate]. specialize (El lab eq_refl).
    destruct (build_modules K false N O D F lab std ub rnd) as [l|] eqn:Eb; cbn [rbind] in E; [|discriminate].
    destruct (region_len K l =? N); cbn [assert_ rbind] in E; [|discriminate]. destruct (check_path N path) as [[]|]; cbn [rbind] in E; [|discriminate]. injection E as <-.
    rewrite Tm. cbn [m_label m_modules] in *. split; [exact El|]. split; [reflexivity|]. rewrite <- (alike_entries _ _ (trained_alike K _ _ T)).
    assert (R : forall k n l, build_region K false O D F std ub rnd k n = Ok l -> map entry_of l = region_entries n D F ub).
    { clear. intros k n l. unfold build_region. destruct n as [|n]; [cbn; intros E; injection E as <-; reflexivity|].
      change (0 <? Datatypes.S n) with true. cbv iota. intros E. destruct (init_tensor K s0 _ _ _ _) as [t|] eqn:Et; cbn [rbind] in E; [|discriminate].
      apply init_tensor_shape in Et; [|reflexivity]. destruct (input_region K t ub None) as [m|] eqn:Em; cbn [rbind] in E; [|discriminate]. injection E as <-.
      apply (input_region_form K _ _ _ _ _ _ Et) in Em. subst m. cbn [map region_entries]. unfold entry_of. cbn [has_bias mod_tensor]. rewrite Et. destruct ub; reflexivity. }
    unfold build_modules in Eb. destruct (build_region K false O D F std ub rnd 0 lab) as [a|] eqn:Ea; cbn [rbind] in Eb; [|discriminate].
    destruct (init_tensor K s0 _ _ _ (mkT _ (rnd 1))) as [t|] eqn:Et; cbn [rbind] in Eb; [|discriminate].
    destruct (build_region K false O D F std ub rnd 2 (N - lab)) as [r|] eqn:Er; cbn [rbind] in Eb; [|discriminate]. injection Eb as <-.
    apply init_tensor_shape in Et; [|reflexivity]. rewrite !map_app. cbn [map]. unfold entry_of at 2. cbn [has_bias mod_tensor]. rewrite Et, (R _ _ _ Ea), (R _ _ _ Er). reflexivity.
  Qed.
  Lemma entries_decide N O D F lab ub N' O' D' F' lab' ub' : 1 <= N -> 1 <= N' -> lab <= N -> lab' <= N' ->
    region_entries lab D F ub ++ [(false, [O; D; D], [0])] ++ region_entries (N - lab) D F ub = region_entries lab' D' F' ub' ++ [(false, [O'; D'; D'], [0])] ++ region_entries (N' - lab') D' F' ub' ->
    N = N' /\ O = O' /\ D = D' /\ F = F' /\ lab = lab' /\ ub = ub'.
  Proof.
    intros H1 H1' H2 H2' E. assert (U : (if ub then [1; D; D] else [0]) = (if ub' then [1; D'; D'] else [0]) -> ub = ub') by (destruct ub, ub'; intros X; try reflexivity; discriminate X).
    destruct lab as [|lab], lab' as [|lab']; cbn [region_entries app Nat.sub] in E; try discriminate E.
    - rewrite !Nat.sub_0_r in E. destruct N as [|N]; [lia|]. destruct N' as [|N']; [lia|]. cbn [region_entries] in E. injection E; intros. assert (ub = ub') by (apply U; assumption). repeat split; congruence.
    - injection E; intros Er; intros. assert (Eu : ub = ub') by (apply U; assumption). clear U. subst. assert (N - Datatypes.S lab' = N' - Datatypes.S lab').
      { destruct (N - Datatypes.S lab') as [|k], (N' - Datatypes.S lab') as [|k']; cbn [region_entries] in Er; try discriminate Er; [reflexivity|]. injection Er as ->. reflexivity. }
      repeat split; try lia; reflexivity.
  Qed.
  (** the modules of a loaded checkpoint *)
  Lemma load_entries m n : snd (mps_load K n (mps_state_dict K m)) = Ok tt -> map entry_of (m_modules n) = map entry_of (m_modules m).
  Proof.
    unfold mps_load, mps_state_dict. intros H. assert (H' : snd (load (mps_layout K n) (mps_memory K n) (state_dict (mps_layout K m) (mps_memory K m))) = Ok tt) by (destruct (load _ _ _); exact H). clear H.
    destruct (load_saved K _ _ _ _ (layout_functional K _ 0 (m_modules m)) H') as [H1 H2]. unfold mps_layout, mps_memory in H1, H2. clear H'.
    assert (Inv : forall (j j' : nat) (b b' : bool), list_key "module_list" ++ [PI j; PN (if b then "bias_mat" else "tensor")] = list_key "module_list" ++ [PI j'; PN (if b' then "bias_mat" else "tensor")] -> j = j' /\ b = b').
    { intros j j' b b' E. apply app_inv_head in E. injection E as E E'. split; [exact E|]. destruct b, b'; try reflexivity; discriminate E'. }
    assert (P1 : forall j x (b : bool), nth_error (m_modules n) j = Some x -> (b = true -> has_bias K x = true) ->
               exists y, nth_error (m_modules m) j = Some y /\ (b = true -> has_bias K y = true) /\ shp (mods_read K (m_modules n) j b) = shp (mods_read K (m_modules m) j b)).
    { intros j x b Hj Hb. destruct (H1 (list_key "module_list" ++ [PI j; PN (if b then "bias_mat" else "tensor")]) (0, j, b)) as ([[c i] b'] & Hq & Es).
      { apply mods_layout_in. exists j, x, b. repeat split; assumption. }
      apply mods_layout_in in Hq as (j' & y & b2 & Hy & Hb2 & Ek & Eq). cbn [Nat.add] in *; apply Inv in Ek as [<- <-]. injection Eq as -> -> ->. exists y. repeat split; assumption. }
    assert (P2 : forall j y (b : bool), nth_error (m_modules m) j = Some y -> (b = true -> has_bias K y = true) -> exists x, nth_error (m_modules n) j = Some x /\ (b = true -> has_bias K x = true)).
    { intros j y b Hj Hb. destruct (H2 (list_key "module_list" ++ [PI j; PN (if b then "bias_mat" else "tensor")]) (0, j, b)) as (q & Hq).
      { apply mods_layout_in. exists j, y, b. repeat split; assumption. }
      apply mods_layout_in in Hq as (j' & x & b2 & Hx & Hb2 & Ek & _). cbn [Nat.add] in *; apply Inv in Ek as [<- <-]. exists x. split; assumption. }
    apply nth_error_ext_all. intros j. rewrite !nth_error_map. destruct (nth_error (m_modules n) j) as [x|] eqn:Ex.
    - destruct (P1 j x false Ex ltac:(discriminate)) as (y & Ey & _ & S1). rewrite Ey. cbn [option_map]. f_equal. 
      assert (Hb : has_bias K x = has_bias K y).
      { destruct (has_bias K x) eqn:Bx.
        - destruct (P1 j x true Ex (fun _ => Bx)) as (y' & Ey' & Hy & _). rewrite Ey in Ey'. injection Ey' as <-. symmetry. apply Hy. reflexivity.
        - destruct (has_bias K y) eqn:By; [|reflexivity]. destruct (P2 j y true Ey (fun _ => By)) as (x' & Ex' & Hx). rewrite Ex in Ex'. injection Ex' as <-. rewrite <- Bx. apply Hx. reflexivity. }
      unfold mods_read in S1. rewrite Ex, Ey in S1. unfold entry_of. rewrite S1, Hb. f_equal.
      destruct (has_bias K y) eqn:By.
      + destruct (P1 j x true Ex (fun _ => Hb)) as (y' & Ey' & _ & S2). rewrite Ey in Ey'. injection Ey' as <-. unfold mods_read in S2. rewrite Ex, Ey in S2.
        destruct x; try discriminate Hb. destruct y; try discriminate By. destruct bias, bias0; exact S2.
      + destruct x; try discriminate Hb; destruct y; try discriminate By; reflexivity.
    - destruct (nth_error (m_modules m) j) as [y|] eqn:Ey; [|reflexivity]. destruct (P2 j y false Ey ltac:(discriminate)) as (x & Ex' & _). congruence.
  Qed.

  (** C108: the checkpoint of a trained model can be loaded into a model built with other arguments exactly if input_dim, output_dim,
      bond_dim, feature_dim, the resolved label_site and use_bias agree.  Then the receiver has the parameters of the saved model, and
      keeps its own periodic_bc, parallel_eval, path and feature map. *)
  Theorem C108_mps_strict N O D F per par label path std ub rnd m0 m N' O' D' F' per' par' label' path' std' ub' rnd' n0 n :
    mps_init K N O D F per par label path std ub rnd = Ok m0 -> trained m0 m -> mps_init K N' O' D' F' per' par' label' path' std' ub' rnd' = Ok n0 -> trained n0 n -> 1 <= N -> 1 <= N' ->
    (mps_load K n (mps_state_dict K m) =
       (mkMps K N' O' D' F' per' par' (m_label n) path' ub' (m_modules m) (m_fmap n), Ok tt) /\ (N, O, D, F, label_of N label, ub) = (N', O', D', F', label_of N' label', ub')) \/
    (snd (mps_load K n (mps_state_dict K m)) = Err RuntimeError /\ (N, O, D, F, label_of N label, ub) <> (N', O', D', F', label_of N' label', ub')).
  Proof.
    intros E T E' T' HN HN'. destruct (init_entries _ _ _ _ _ _ _ _ _ _ _ _ _ E T) as (L & EL & En). destruct (init_entries _ _ _ _ _ _ _ _ _ _ _ _ _ E' T') as (L' & EL' & En').
    destruct (load_either K (mps_layout K n) (mps_memory K n) (mps_state_dict K m)) as [H|H].
    - left. assert (Hs : snd (mps_load K n (mps_state_dict K m)) = Ok tt) by (unfold mps_load; destruct (load _ _ _); exact H).
      apply load_entries in Hs. rewrite En, En' in Hs. symmetry in Hs. destruct (entries_decide _ _ _ _ _ _ _ _ _ _ _ _ HN HN' L L' Hs) as (<- & <- & <- & <- & El & <-).
      split; [|rewrite EL, EL', El; reflexivity].
      assert (Sw : mps_load K n (mps_state_dict K m) = (mkMps K (m_input n) (m_output n) (m_bond n) (m_feature n) (m_periodic n) (m_parallel n) (m_label n) (m_path n) (m_use_bias n) (m_modules m) (m_fmap n), Ok tt)).
      { assert (AL : Forall2 (alike K) (m_modules n) (m_modules m)).
        { clear - E T E' T' EL EL' El. destruct T as [T1 F1]. destruct T' as [T2 F2]. unfold mps_init in E, E'. rewrite EL in E. rewrite EL', <- El in E'. cbn [rbind] in E, E'.
          destruct (build_modules K false N O D F (m_label m) std ub rnd) as [l|] eqn:B1; cbn [rbind] in E; [|discriminate].
          destruct (build_modules K false N O D F (m_label m) std' ub rnd') as [l'|] eqn:B2; cbn [rbind] in E'; [|discriminate].
          destruct (region_len K l =? N); cbn [assert_ rbind] in E; [|discriminate]. destruct (region_len K l' =? N); cbn [assert_ rbind] in E'; [|discriminate].
          destruct (check_path N path) as [[]|]; cbn [rbind] in E; [|discriminate]. destruct (check_path N path') as [[]|]; cbn [rbind] in E'; [|discriminate]. injection E as <-. injection E' as <-.
          cbn [m_modules] in *. eapply all_trans; [apply all_sym; apply trained_alike; exact T2|]. eapply all_trans; [|apply trained_alike; exact T1]. exact (build_alike _ _ _ _ _ _ _ _ _ _ _ _ _ _ B2 B1). }
        unfold mps_load, mps_state_dict, mps_layout. rewrite <- (alike_layout K _ _ _ _ AL).
        destruct (load_same K (mods_layout K (list_key "module_list") 0 0 (m_modules n)) (mps_memory K n) (mps_memory K m) (layout_functional K _ _ _) (layout_injective K _ _ _)) as (s & Es & Hv).
        { intros [[c i] b]. symmetry. apply (alike_read K _ _ AL). }
        rewrite Es. f_equal. f_equal. apply (mods_write_values K s 0 _ _ AL).
        - intros j x Hj. refine (Hv _ (0, j, false) _). apply mods_layout_in. exists j, x, false. split; [exact Hj|]. split; [discriminate|]. split; reflexivity.
        - intros j x Hj Hb. refine (Hv _ (0, j, true) _). apply mods_layout_in. exists j, x, true. split; [exact Hj|]. split; [intros _; exact Hb|]. split; reflexivity. }
      rewrite Sw. destruct T' as [_ Fn]. clear - E' Fn. unfold mps_init in E'. destruct (label_of N label'); cbn [rbind] in E'; [|discriminate]. destruct (build_modules _ _ _ _ _ _ _ _ _ _); cbn [rbind] in E'; [|discriminate].
      destruct (_ =? N); cbn [assert_ rbind] in E'; [|discriminate]. destruct (check_path N path') as [[]|]; cbn [rbind] in E'; [|discriminate]. injection E' as <-. rewrite Fn. reflexivity.
    - right. split; [unfold mps_load; destruct (load _ _ _); exact H|]. intros Eq. injection Eq as <- <- <- <- Eq <-. rewrite EL, EL' in Eq. injection Eq as Eq.
      revert H. clear En En' L L' HN HN'.
      assert (AL : Forall2 (alike K) (m_modules n) (m_modules m)).
      { clear - E T E' T' EL EL' Eq. destruct T as [T1 F1]. destruct T' as [T2 F2]. unfold mps_init in E, E'. rewrite EL in E. rewrite EL', <- Eq in E'. cbn [rbind] in E, E'.
        destruct (build_modules K false N O D F (m_label m) std ub rnd) as [l|] eqn:B1; cbn [rbind] in E; [|discriminate].
        destruct (build_modules K false N O D F (m_label m) std' ub rnd') as [l'|] eqn:B2; cbn [rbind] in E'; [|discriminate].
        destruct (region_len K l =? N); cbn [assert_ rbind] in E; [|discriminate]. destruct (region_len K l' =? N); cbn [assert_ rbind] in E'; [|discriminate].
        destruct (check_path N path) as [[]|]; cbn [rbind] in E; [|discriminate]. destruct (check_path N path') as [[]|]; cbn [rbind] in E'; [|discriminate]. injection E as <-. injection E' as <-.
        cbn [m_modules] in *. eapply all_trans; [apply all_sym; apply trained_alike; exact T2|]. eapply all_trans; [|apply trained_alike; exact T1]. exact (build_alike _ _ _ _ _ _ _ _ _ _ _ _ _ _ B2 B1). }
      unfold mps_state_dict, mps_layout. rewrite <- (alike_layout K _ _ _ _ AL).
      destruct (load_same K (mods_layout K (list_key "module_list") 0 0 (m_modules n)) (mps_memory K n) (mps_memory K m) (layout_functional K _ _ _) (layout_injective K _ _ _)) as (s & Es & _).
      { intros [[c i] b]. symmetry. apply (alike_read K _ _ AL). }
      rewrite Es. discriminate.
  Qed.

  (** C108: TI_MPS: output_dim, bond_dim, feature_dim and use_bias must agree *)
  Theorem C108_ti_strict O D F par fe std ub fb over rnd m0 m O' D' F' par' fe' std' ub' fb' over' rnd' n0 n :
    ti_init K O D F par fe std ub fb over rnd = Ok m0 -> ti_trained m0 m -> ti_init K O' D' F' par' fe' std' ub' fb' over' rnd' = Ok n0 -> ti_trained n0 n ->
    snd (ti_load K n (ti_state_dict K m)) = if (O =? O') && (D =? D') && (F =? F') && Bool.eqb ub ub' then Ok tt else Err RuntimeError.
  Proof.
    intros E T E' T'. destruct (P_TiMps.ti_init_built _ _ _ _ _ _ _ _ _ _ _ _ _ E T) as [_ _ _ _ _ _ a7 a8 a9 a10]. destruct (P_TiMps.ti_init_built _ _ _ _ _ _ _ _ _ _ _ _ _ E' T') as [_ _ _ _ _ _ b7 b8 b9 b10]. clear E T E' T'.
    destruct m as [mo md mf mp mu mb core vec mat bias fm], n as [no nd nf np nu nb core' vec' mat' bias' fn]. cbn [t_core t_vec t_mat t_bias] in *.
    assert (Core : list_eqb (shp core) (shp core') = (D =? D') && (F =? F')) by (rewrite a7, b7; cbn [list_eqb]; destruct (D =? D'), (F =? F'); reflexivity).
    assert (Vec : list_eqb (shp vec) (shp vec') = (D =? D')) by (rewrite a8, b8; cbn [list_eqb]; apply andb_true_r).
    assert (Mat : list_eqb (shp mat) (shp mat') = (D =? D') && (O =? O')) by (rewrite a9, b9; cbn [list_eqb]; destruct (D =? D'), (O =? O'); reflexivity).
    assert (Bias : match bias, bias' with Some b, Some b' => ub = true /\ ub' = true /\ list_eqb (shp b) (shp b') = (D =? D') | Some _, None => ub = true /\ ub' = false | None, Some _ => ub = false /\ ub' = true | None, None => ub = ub' end).
    { destruct ub, ub'; [destruct a10 as (b & -> & Sb & _); destruct b10 as (b' & -> & Sb' & _)|destruct a10 as (b & -> & Sb & _); rewrite b10|destruct b10 as (b' & -> & Sb' & _); rewrite a10|rewrite a10, b10]; auto.
      split; [reflexivity|]. split; [reflexivity|]. rewrite Sb, Sb'. cbn [list_eqb]. destruct (D =? D'); reflexivity. }
    clear a7 a8 a9 a10 b7 b8 b9 b10. unfold ti_load, ti_state_dict, ti_layout, load, state_dict.
    destruct bias as [b|], bias' as [b'|]; cbn -[list_eqb] in Bias |- *.
    - destruct Bias as (-> & -> & Bs). rewrite Core. destruct (D =? D') eqn:ED, (F =? F') eqn:EF, (O =? O') eqn:EO; cbn -[list_eqb]; rewrite ?Bs; cbn -[list_eqb]; rewrite ?Vec; cbn -[list_eqb]; rewrite ?Mat; reflexivity.
    - destruct Bias as (-> & ->). rewrite Core. destruct (D =? D') eqn:ED, (F =? F') eqn:EF, (O =? O') eqn:EO; cbn -[list_eqb]; rewrite ?Vec; cbn -[list_eqb]; rewrite ?Mat; reflexivity.
    - destruct Bias as (-> & ->). rewrite Core. destruct (D =? D') eqn:ED, (F =? F') eqn:EF, (O =? O') eqn:EO; cbn -[list_eqb]; rewrite ?Vec; cbn -[list_eqb]; rewrite ?Mat; reflexivity.
    - subst ub'. rewrite Bool.eqb_reflx, Core. destruct (D =? D') eqn:ED, (F =? F') eqn:EF, (O =? O') eqn:EO; cbn -[list_eqb]; rewrite ?Vec; cbn -[list_eqb]; rewrite ?Mat; reflexivity.
  Qed.
End Mps.

Section Prob.
  Variable A : Type.
  Notation T := (tensor A).
  Variable z : T.
  Let lay (bias : option T) : layout := [([PN "core_tensors"], (0, 0, false)); ([PN "edge_vecs"], (1, 0, false))] ++ match bias with Some _ => [([PN "bias_mat"], (0, 0, true))] | None => [] end.
  Let mem (core edge : T) (bias : option T) : memory A := fun '(c, _, b) => if b then match bias with Some b => b | None => z end else if c =? 0 then core else edge.
  Lemma load_three core edge bias core' edge' bias' :
    snd (load (lay bias') (mem core' edge' bias') (state_dict (lay bias) (mem core edge bias))) =
      if list_eqb (shp core) (shp core') && list_eqb (shp edge) (shp edge') && match bias, bias' with Some b, Some b' => list_eqb (shp b) (shp b') | None, None => true | _, _ => false end
      then Ok tt else Err RuntimeError.
  Proof.
    unfold load, state_dict, lay. 
    destruct bias as [b|], bias' as [b'|]; cbn -[list_eqb]; destruct (list_eqb (shp core) (shp core')) eqn:E1; cbn -[list_eqb]; destruct (list_eqb (shp edge) (shp edge')) eqn:E2; cbn -[list_eqb]; try reflexivity;
      destruct (list_eqb (shp b) (shp b')) eqn:E3; reflexivity.
  Qed.
End Prob.
(** C108: ProbMPS and ProbUnifMPS: the shapes of the cores and edge vectors, and the presence of a bias, must agree *)
Theorem C108_prob_strict (K : numfield) (m n : pmps K) :
  snd (p_load K n (p_state_dict K m)) =
    if list_eq_dec Nat.eq_dec (shp (pm_core K m)) (shp (pm_core K n)) then
      if list_eq_dec Nat.eq_dec (shp (pm_edge K m)) (shp (pm_edge K n)) then
        match pm_bias K m, pm_bias K n with
        | Some b, Some b' => if list_eq_dec Nat.eq_dec (shp b) (shp b') then Ok tt else Err RuntimeError
        | None, None => Ok tt
        | _, _ => Err RuntimeError
        end
      else Err RuntimeError
    else Err RuntimeError.
Proof.
  assert (D : forall a b, (if list_eq_dec Nat.eq_dec a b then true else false) = list_eqb a b).
  { intros a b. destruct (list_eq_dec Nat.eq_dec a b) as [->|Hn]; [symmetry; apply list_eqb_nat; reflexivity|]. destruct (list_eqb a b) eqn:E; [apply list_eqb_nat in E; contradiction|reflexivity]. }
  pose proof (load_three K (tconst [0] s0) (pm_core K m) (pm_edge K m) (pm_bias K m) (pm_core K n) (pm_edge K n) (pm_bias K n)) as L.
  rewrite <- !D in L. unfold p_load. match goal with |- snd (let '(st, r) := ?l in _) = _ => assert (E : snd (let '(st, r) := l in (mkP K (st (0, 0, false)) (st (1, 0, false)) (match pm_bias K n with Some _ => Some (st (0, 0, true)) | None => None end) (pm_emb K n), r)) = snd l) by (destruct l; reflexivity) end.
  refine (eq_trans E _). clear E. refine (eq_trans L _). clear L.
  destruct (list_eq_dec Nat.eq_dec (shp (pm_core K m)) (shp (pm_core K n))); [|reflexivity]. destruct (list_eq_dec Nat.eq_dec (shp (pm_edge K m)) (shp (pm_edge K n))); [|reflexivity].
  destruct (pm_bias K m), (pm_bias K n); try reflexivity. rewrite <- D. destruct (list_eq_dec _ _ _); reflexivity.
Qed.

(** ** the hypotheses are met: a periodic model with bias is saved; a model with open boundary accepts the checkpoint, one without bias does not *)
Definition ck_model (per : bool) (D : nat) (ub : bool) : res (mps R_cring) := mps_init R_cring 6 3 D 2 per true None PNone (1/10)%R ub (fun _ _ => 1%R).
Example C108_strict_met : exists m n n', ck_model true 2 true = Ok m /\ ck_model false 2 true = Ok n /\ ck_model true 2 false = Ok n' /\
  trained m m /\ trained n n /\ trained n' n' /\
  snd (mps_load R_cring n (mps_state_dict R_cring m)) = Ok tt /\ snd (mps_load R_cring n' (mps_state_dict R_cring m)) = Err RuntimeError.
Proof.
  assert (X : forall per ub, exists m, ck_model per 2 ub = Ok m /\ trained m m).
  { intros per ub. destruct (P_Mps.C34_constructor R_cring 6 3 2 2 per true None PNone (1/10)%R ub (fun _ _ => 1%R) Logic.I) as (m & E & T & _); [left; left; reflexivity|]. exists m. split; assumption. }
  destruct (X true true) as (m & Em & Tm). destruct (X false true) as (n & En & Tn). destruct (X true false) as (n' & En' & Tn'). exists m, n, n'. do 6 (split; [assumption|]). split.
  - destruct (C108_mps_strict R_cring _ _ _ _ _ _ _ _ _ _ _ _ _ _ _ _ _ _ _ _ _ _ _ _ _ _ Em Tm En Tn ltac:(lia) ltac:(lia)) as [[-> _]|[_ H]]; [reflexivity|exfalso; apply H; reflexivity].
  - destruct (C108_mps_strict R_cring _ _ _ _ _ _ _ _ _ _ _ _ _ _ _ _ _ _ _ _ _ _ _ _ _ _ Em Tm En' Tn' ltac:(lia) ltac:(lia)) as [[_ H]|[H _]]; [discriminate H|exact H].
Qed.
Print Assumptions C108_mps_strict.
Print Assumptions C108_ti_strict.
Print Assumptions C108_prob_strict.
