(** * TmFinal: from the constructor of MPS to the value of its forward pass *)
From Verif Require Import Base Scalars Tensor Spec LinAlg EinsumProofs Contractables ContrSpec ContrProofs ContrReduce Utils UtilsSpec UtilsProofs TorchMps TmSpec TmProofs.

Section P.
  Variable K : cring.
  Add Ring Kr : (rth K).
  Notation T := (tensor K).
  Implicit Types t u x : T.

  (** *** the constructor *)
  Lemma init_tensor_shape dstd shape bond m noise t : shp noise = shape ->
    init_tensor K dstd shape bond m noise = Ok t -> shp t = shape.
  Proof.
    intros Hn. unfold init_tensor.
    destruct (match m with IName name => _ | ITuple name std rest => _ end) as [[[name std] dim]|e]; cbn [rbind]; [|discriminate].
    destruct (List.length shape =? List.length (chars bond)); cbn [assert_ rbind]; [|discriminate].
    destruct (nodupb (chars bond)); cbn [assert_ rbind]; [|discriminate].
    destruct (String.eqb name "random_zero"); [intros E; injection E as <-; exact Hn|].
    destruct (_ || _); [|discriminate].
    destruct (_ && _); cbn [assert_ rbind]; [|discriminate].
    destruct (if String.eqb name "min_random_eye" then _ else _) as [[[[e0 e1] es] xs]|e]; cbn [rbind]; [|discriminate].
    destruct (view _ _) as [e|]; cbn [rbind]; [|discriminate].
    destruct (expand _ _) as [e'|]; cbn [rbind]; [|discriminate].
    intros E. destruct (tzip_same (sadd (s := K)) (fill_zeros K shape xs e') (tmap (smul std) noise) shape eq_refl Hn) as (v & Ev & Hv & _).
    rewrite Ev in E. injection E as <-. exact Hv.
  Qed.
  Lemma input_region_form t ub m n D F : shp t = [n; D; D; F] -> input_region K t ub None = Ok m ->
    m = InputRegion t ub (if ub then Some (unsq_front 1 (eye2 K D D)) else None).
  Proof.
    intros Ht. unfold input_region, ndim, size. rewrite Ht. cbn [List.length Nat.eqb assert_ rbind nth]. rewrite Nat.eqb_refl. cbn [assert_ rbind].
    destruct ub; intros E; injection E as <-; reflexivity.
  Qed.
  (** the shape of a region of n sites, of the output site *)
  Definition region_shape (n D F : nat) (ub : bool) (m : module K) : Prop :=
    exists t b, m = InputRegion t ub b /\ shp t = [n; D; D; F] /\ bias_ok K ub b n D.
  Definition region_list (n D F : nat) (ub : bool) (l : list (module K)) : Prop :=
    match n with 0 => l = [] | _ => exists m, l = [m] /\ region_shape n D F ub m end.
  Definition mps_form (N O D F lab : nat) (ub : bool) (mods : list (module K)) : Prop :=
    exists l t r, mods = l ++ [OutputSite t] ++ r /\ region_list lab D F ub l /\ shp t = [O; D; D] /\ region_list (N - lab) D F ub r.

  Lemma build_form ad N O D F lab std ub rnd mods :
    build_modules K ad N O D F lab std ub rnd = Ok mods -> mps_form N O D F lab ub mods.
  Proof.
    unfold build_modules.
    set (region := build_region K ad O D F std ub rnd).
    assert (R : forall k n l, region k n = Ok l -> region_list n D F ub l).
    { intros k n l. unfold region, build_region. destruct n as [|n]; [cbn; intros E; injection E as <-; reflexivity|].
      change (0 <? Datatypes.S n) with true. cbv iota. intros E.
      destruct (init_tensor K s0 _ _ _ _) as [t|] eqn:Et; cbn [rbind] in E; [|discriminate].
      apply init_tensor_shape in Et; [|reflexivity].
      destruct (input_region K t ub None) as [m|] eqn:Em; cbn [rbind] in E; [|discriminate]. injection E as <-.
      apply (input_region_form _ _ _ _ _ _ Et) in Em. cbn [region_list]. exists m. split; [reflexivity|].
      exists t, (if ub then Some (unsq_front 1 (eye2 K D D)) else None). split; [exact Em|]. split; [exact Et|].
      intros ->. eexists. split; [reflexivity|]. reflexivity. }
    intros E. destruct (region 0 lab) as [l|] eqn:El; cbn [rbind] in E; [|discriminate].
    destruct (init_tensor K s0 _ _ _ _) as [t|] eqn:Et; cbn [rbind] in E; [|discriminate].
    destruct (region 2 (N - lab)) as [r|] eqn:Er; cbn [rbind] in E; [|discriminate]. injection E as <-.
    exists l, t, r. split; [reflexivity|]. split; [eapply R; exact El|]. split; [|eapply R; exact Er].
    apply init_tensor_shape in Et; [exact Et|reflexivity].
  Qed.
  Lemma region_trained n D F ub l l' : region_list n D F ub l -> Forall2 mod_trained l l' -> region_list n D F ub l'.
  Proof.
    destruct n; cbn [region_list].
    - intros -> H. inversion H. reflexivity.
    - intros (m & -> & t & b & -> & Ht & Hb) H. inversion H as [|? m' ? ? Hm Hr]; subst. inversion Hr; subst. exists m'. split; [reflexivity|].
      inversion Hm as [? t' ? ? b' Et Eb|? t' ? Et|]; subst; unfold same_shape in *.
      + exists t', (Some b'). split; [reflexivity|]. split; [congruence|]. intros Hu. destruct (Hb Hu) as (bb & E & Hs). injection E as <-. exists b'. split; [reflexivity|congruence].
      + exists t', None. split; [reflexivity|]. split; [congruence|]. intros Hu. destruct (Hb Hu) as (bb & E & _). discriminate.
  Qed.
  Lemma form_trained N O D F lab ub mods mods' : mps_form N O D F lab ub mods -> Forall2 mod_trained mods mods' -> mps_form N O D F lab ub mods'.
  Proof.
    intros (l & t & r & -> & Hl & Ht & Hr) H. apply Forall2_app_inv_l in H as (l' & x' & Hl' & H & ->).
    apply Forall2_app_inv_l in H as (o' & r' & Ho & Hr' & ->). inversion Ho as [|? m' ? ? Hm Hn]; subst. inversion Hn; subst.
    inversion Hm as [| |? t' Et]; subst. exists l', t', r'. split; [reflexivity|].
    split; [eapply region_trained; eassumption|]. split; [unfold same_shape in Et; congruence|eapply region_trained; eassumption].
  Qed.

  Record built (N O D F : nat) (per par : bool) (lab : nat) (path : mpath) (ub : bool) (m : mps K) : Prop := {
    b_in : m_input m = N; b_out : m_output m = O; b_bond : m_bond m = D; b_feat : m_feature m = F;
    b_per : m_periodic m = per; b_par : m_parallel m = par; b_lab : m_label m = lab; b_le : lab <= N;
    b_path : m_path m = path; b_form : mps_form N O D F lab ub (m_modules m) }.
  Lemma init_built N O D F per par label path std ub rnd m0 m :
    mps_init K N O D F per par label path std ub rnd = Ok m0 -> trained m0 m ->
    built N O D F per par (match label with None => N / 2 | Some z => Z.to_nat z end) path ub m.
  Proof.
    unfold mps_init, label_of. set (l := match label with None => _ | Some z => z end). intros E.
    destruct ((0 <=? l)%Z && (l <=? Z.of_nat N)%Z) eqn:El; cbn [assert_ rbind] in E; [|discriminate].
    apply andb_prop in El as [E0 E1]. apply Z.leb_le in E0, E1.
    destruct (build_modules K false N O D F (Z.to_nat l) std ub rnd) as [mods|] eqn:Eb; cbn [rbind] in E; [|discriminate].
    destruct (region_len K mods =? N); cbn [assert_ rbind] in E; [|discriminate].
    destruct (check_path N path) as [[]|]; cbn [rbind] in E; [|discriminate]. injection E as <-.
    intros [Ht ->]. assert (El : Z.to_nat l = match label with None => N / 2 | Some z => Z.to_nat z end).
    { unfold l. destruct label; [reflexivity|]. apply Nat2Z.id. }
    rewrite <- El. cbn in *. constructor; cbn; try reflexivity; [lia|].
    eapply form_trained; [eapply build_form; exact Eb|exact Ht].
  Qed.

  (** the constructor succeeds for every label site in range *)
  Lemma build_ok ad N O D F lab std ub rnd : exists mods, build_modules K ad N O D F lab std ub rnd = Ok mods.
  Proof.
    unfold build_modules.
    set (region := build_region K ad O D F std ub rnd).
    assert (R : forall k n, exists l, region k n = Ok l).
    { intros k n. unfold region, build_region. destruct (0 <? n); [|eauto].
      assert (exists t, init_tensor K s0 [n; D; D; F] "slri" (ITuple (if ad then "min_random_eye" else "random_zero") std [O]) (mkT [n; D; D; F] (rnd k)) = Ok t /\ shp t = [n; D; D; F]) as (t & Et & Ht).
      { destruct ad.
        - edestruct (init_min_random_eye K s0 [n; D; D; F] "slri" std O [] (mkT [n; D; D; F] (rnd k))) as (t & Et & Ht & _); [reflexivity|reflexivity|apply nodupb_NoDup; reflexivity|cbn; tauto|cbn; tauto|right; reflexivity|].
          exists t. auto.
        - eexists. split; reflexivity. }
      rewrite Et. cbn [rbind]. unfold input_region, ndim, size. rewrite Ht. cbn [List.length Nat.eqb nth assert_ rbind]. rewrite Nat.eqb_refl. cbn [assert_ rbind].
      destruct ub; cbn; eauto. }
    destruct (R 0 lab) as (l & ->). cbn [rbind].
    assert (exists t, init_tensor K s0 [O; D; D] "olr" (ITuple (if ad then "min_random_eye" else "random_eye") std [O]) (mkT [O; D; D] (rnd 1)) = Ok t) as (t & Et).
    { destruct ad.
      - edestruct (init_min_random_eye K s0 [O; D; D] "olr" std O [] (mkT [O; D; D] (rnd 1))) as (t & Et & Ht & _); [reflexivity|reflexivity|apply nodupb_NoDup; reflexivity|cbn; tauto|cbn; tauto|right; reflexivity|]. eauto.
      - edestruct (init_random_eye K s0 [O; D; D] "olr" std [O] (mkT [O; D; D] (rnd 1))) as (t & Et & Ht & _); [reflexivity|reflexivity|apply nodupb_NoDup; reflexivity|left; exists ["o"%char], [], []; split; reflexivity|]. eauto. }
    rewrite Et. cbn [rbind]. destruct (R 2 (N - lab)) as (r & ->). cbn [rbind]. eauto.
  Qed.

  Lemma region_list_len n D F ub l : region_list n D F ub l -> region_len K l = n.
  Proof.
    destruct n; cbn [region_list]; [intros ->; reflexivity|]. intros (m & -> & t & b & -> & Ht & _).
    cbn [region_len fold_right mod_len]. unfold size. rewrite Ht. cbn [nth]. lia.
  Qed.
  Lemma region_len_app l l' : region_len K (l ++ l') = region_len K l + region_len K l'.
  Proof. induction l as [|m l IH]; [reflexivity|]. cbn [app region_len fold_right] in *. unfold region_len in *. rewrite IH. lia. Qed.
  Lemma form_len N O D F lab ub mods : lab <= N -> mps_form N O D F lab ub mods -> region_len K mods = N.
  Proof.
    intros Hle (l & t & r & -> & Hl & Ht & Hr). rewrite !region_len_app, (region_list_len _ _ _ _ _ Hl), (region_list_len _ _ _ _ _ Hr). cbn. lia.
  Qed.
  Lemma region_list_wf n D F O ub l : region_list n D F ub l -> n <> 1 ->
    Forall (wf_mod K D F O) l /\ Forall (not_short K) l /\ outs K l = [] /\ List.length l <= 1 /\ (0 < n -> List.length l = 1).
  Proof.
    destruct n as [|n]; cbn [region_list]; [intros -> _; repeat split; try constructor; cbn; lia|]. intros (m & -> & t & b & -> & Ht & Hb) Hn.
    split; [|split; [|split; [reflexivity|split; [cbn; lia|reflexivity]]]]; constructor; try constructor; cbn.
    - exists (Datatypes.S n). split; [lia|]. split; [exact Ht|exact Hb].
    - unfold size. rewrite Ht. cbn. lia.
  Qed.
  Lemma form_good N O D F lab ub mods : mps_form N O D F lab ub mods -> lab <> 1 -> N - lab <> 1 -> good_mods K D F O mods.
  Proof.
    intros (l & t & r & -> & Hl & Ht & Hr) H1 H2.
    destruct (region_list_wf _ _ _ O _ _ Hl H1) as (W1 & S1 & O1 & _). destruct (region_list_wf _ _ _ O _ _ Hr H2) as (W2 & S2 & O2 & _).
    split; [|split].
    - apply Forall_app. split; [exact W1|]. apply Forall_app. split; [|exact W2]. constructor; [exact Ht|constructor].
    - apply Forall_app. split; [exact S1|]. apply Forall_app. split; [|exact S2]. constructor; [exact Logic.I|constructor].
    - unfold outs in *. rewrite !filter_app, O1, O2. reflexivity.
  Qed.
  Lemma form_ready N O D F lab ub mods B g : mps_form N O D F lab ub mods -> 0 < lab \/ g = Some B -> ready K mods B g.
  Proof.
    intros (l & t & r & -> & Hl & _) H. destruct lab as [|lab]; cbn [region_list] in Hl.
    - subst l. cbn [app ready]. intros _. destruct H as [H|H]; [lia|exact H].
    - destruct Hl as (m & -> & t' & b & -> & _). cbn [app ready lone]. discriminate.
  Qed.
  Lemma form_two N O D F lab ub mods : lab <= N -> 1 <= N -> mps_form N O D F lab ub mods -> 2 <= List.length mods.
  Proof.
    intros Hle HN (l & t & r & -> & Hl & _ & Hr). rewrite !app_length. cbn [List.length].
    destruct lab as [|lab]; cbn [region_list] in Hl.
    - rewrite Nat.sub_0_r in Hr. destruct N; [lia|]. destruct Hr as (m & -> & _). cbn. lia.
    - destruct Hl as (m & -> & _). cbn. lia.
  Qed.
  (** what the modules compute is the list of factors of the specification *)
  Lemma sem_all_app F l l' ind px o : sem_all K F (l ++ l') ind px o = sem_all K F l ind px o ++ sem_all K F l' (ind + region_len K l) px o.
  Proof.
    revert ind. induction l as [|m l IH]; intros ind; cbn [app sem_all region_len fold_right]; [rewrite Nat.add_0_r; reflexivity|].
    rewrite IH, <- app_assoc. unfold region_len. rewrite Nat.add_assoc. reflexivity.
  Qed.
  Lemma map_seq_shift {A} (f : nat -> A) a n : map f (seq a n) = map (fun s => f (a + s)) (seq 0 n).
  Proof. revert a f. induction n as [|n IH]; intros a f; [reflexivity|]. cbn [seq map]. rewrite Nat.add_0_r. f_equal. rewrite (IH (Datatypes.S a)), (IH 1). apply map_ext. intros s. f_equal. lia. Qed.
  Lemma form_factors N O D F ub m : m_label m <= N -> mps_form N O D F (m_label m) ub (m_modules m) ->
    forall px o, sem_all K F (m_modules m) 0 px o = factors N (m_label m) D F (weights_of m) px o.
  Proof.
    intros Hle (l & t & r & E & Hl & Ht & Hr) px o. unfold factors.
    assert (Eo : mod_tensor (out_mod m) = t).
    { unfold out_mod. rewrite E. destruct (m_label m); cbn [region_list] in Hl; [subst l; reflexivity|destruct Hl as (? & -> & _); reflexivity]. }
    rewrite E at 1. rewrite !sem_all_app. f_equal; [|f_equal].
    - destruct (m_label m) as [|lab] eqn:El; cbn [region_list] in Hl; [subst l; reflexivity|].
      destruct Hl as (mm & -> & tl & b & -> & Htl & _). cbn [sem_all sem]. rewrite app_nil_r. unfold rcl, size. rewrite Htl. cbn [nth].
      apply map_ext_in. intros s Hs. apply in_seq in Hs. unfold weights_of. cbn [w_core w_bias]. rewrite El.
      unfold first_mod. rewrite E. cbn [app nth mod_tensor]. destruct (Nat.ltb_spec s (Datatypes.S lab)); [|lia]. reflexivity.
    - cbn [sem_all sem app]. unfold size. rewrite Ht. cbn [nth]. unfold weights_of. cbn [w_out]. rewrite Eo. reflexivity.
    - rewrite (region_list_len _ _ _ _ _ Hl). cbn [region_len fold_right mod_len Nat.add]. rewrite Nat.add_0_r.
      destruct (N - m_label m) as [|n] eqn:En; cbn [region_list] in Hr; [subst r; reflexivity|].
      destruct Hr as (mm & -> & tr & b & -> & Htr & _). cbn [sem_all sem]. rewrite app_nil_r. unfold rcl, size. rewrite Htr. cbn [nth].
      rewrite (map_seq_shift _ (m_label m)). apply map_ext_in. intros s Hs. apply in_seq in Hs. unfold weights_of. cbn [w_core w_bias].
      unfold last_mod. rewrite E. rewrite app_assoc, last_last. cbn [mod_tensor].
      destruct (Nat.ltb_spec (m_label m + s) (m_label m)); [lia|]. replace (m_label m + s - m_label m) with s by lia. reflexivity.
  Qed.

  (** *** the forward pass, from the embedded input on *)
  Definition value (per : bool) N lab D F (w : weights K) px o : K := if per then ring_value N lab D F w px o else train_value N lab D F w px o.
  Lemma region_value N O D F per par par' lab path ub m x B g : built N O D F per par lab path ub m ->
    lab <> 1 -> N - lab <> 1 -> 0 < lab \/ g = Some B -> (if per then 1 <= N else 0 < D) -> shp x = [B; N; F] ->
    exists out, region_forward K (m_modules m) per par' x g = (Ok out, Some B) /\ shp out = [B; O] /\
      forall b o, b < B -> o < O -> get out [b; o] = value per N lab D F (weights_of m) (fun s i => get x [b; s; i]) o.
  Proof.
    intros H H1 H2 Hg Hc Hx. destruct H as [Hin Hout Hbond Hfeat Hper Hpar Hlab Hle Hpath Hform]. subst lab.
    pose proof (form_good _ _ _ _ _ _ _ Hform H1 H2) as G. pose proof (form_ready _ _ _ _ _ _ _ B g Hform Hg) as R.
    pose proof (form_len _ _ _ _ _ _ _ Hle Hform) as L. rewrite <- L in Hx at 1.
    destruct per.
    - destruct (region_ring K D F O _ par' x B g G (form_two _ _ _ _ _ _ _ Hle Hc Hform) Hx R) as (out & Eo & Ho & Go).
      exists out. split; [exact Eo|]. split; [exact Ho|]. intros b o Hb Ho'. rewrite Go by assumption.
      unfold value, ring_value. rewrite (form_factors N O D F ub m Hle Hform). reflexivity.
    - destruct (region_open K D F O _ par' x B g G Hc Hx R) as (out & Eo & Ho & Go).
      exists out. split; [exact Eo|]. split; [exact Ho|]. intros b o Hb Ho'. rewrite Go by assumption.
      unfold value, train_value. rewrite (form_factors N O D F ub m Hle Hform). reflexivity.
  Qed.
  Lemma mps_embed_pre m x B : shp x = [B; m_input m; m_feature m] -> mps_embed K m x = Ok x.
  Proof. intros Hx. unfold mps_embed, ndim, size. rewrite Hx. cbn [List.length Nat.eqb orb nth assert_ rbind]. rewrite !Nat.eqb_refl. reflexivity. Qed.
  Lemma mps_forward_eq m x g y e : route K (m_path m) x = Ok y -> mps_embed K m y = Ok e ->
    mps_forward K m x g = region_forward K (m_modules m) (m_periodic m) (m_parallel m) e g.
  Proof. intros Hr He. unfold mps_forward, mbind, lift. rewrite Hr, He. reflexivity. Qed.
  Lemma route_off p x : path_true p = Ok false -> route K p x = Ok x.
  Proof. intros H. unfold route. rewrite H. reflexivity. Qed.

  (** *** lists of factors with the same entries *)
  Definition same_fac : list (nat * mat K) -> list (nat * mat K) -> Prop := Forall2 (fun p q => fst p = fst q /\ forall i j, snd p i j = snd q i j).
  Lemma same_fac_chain l l' : same_fac l l' -> forall i j, chain l i j = chain l' i j.
  Proof.
    induction 1 as [|[n M] [n' M'] l l' [E1 E2] H IH]; intros i j; [reflexivity|]. cbn in E1, E2. subst n'. rewrite !chain_cons. apply mmul_ext; intros; auto.
  Qed.
  Lemma same_fac_refl l : same_fac l l. Proof. induction l; constructor; auto. Qed.
  Definition fac (D F : nat) (w : weights K) (px : nat -> vec K) (s : nat) : nat * mat K := (D, site_matrix F (w_core w s) (w_bias w s) (px s)).
  Lemma same_fac_map D F w px px' l : (forall s i, In s l -> i < F -> px s i = px' s i) -> same_fac (map (fac D F w px) l) (map (fac D F w px') l).
  Proof.
    induction l as [|s l IH]; intros H; [constructor|]. constructor.
    - split; [reflexivity|]. intros i j. cbn. unfold site_matrix. f_equal. apply bsum_ext. intros k Hk. rewrite (H s k (or_introl eq_refl) Hk). reflexivity.
    - apply IH. intros s' i Hs' Hi. apply H; [right; exact Hs'|exact Hi].
  Qed.
  Lemma value_ext per N lab D F w px px' o : lab <= N -> (forall s i, s < N -> i < F -> px s i = px' s i) -> value per N lab D F w px o = value per N lab D F w px' o.
  Proof.
    intros Hle H. assert (S : same_fac (factors N lab D F w px o) (factors N lab D F w px' o)).
    { unfold factors. apply Forall2_app; [apply same_fac_map; intros s i Hs; apply in_seq in Hs; apply H; lia|].
      apply Forall2_app; [apply same_fac_refl|]. apply same_fac_map; intros s i Hs; apply in_seq in Hs; apply H; lia. }
    unfold value. destruct per.
    - unfold ring_value, mtrace. apply bsum_ext. intros k _. apply same_fac_chain. exact S.
    - unfold train_value. apply same_fac_chain. exact S.
  Qed.
  (** *** linearity in one factor *)
  Lemma chain_lin n (M0 M1 M2 : mat K) a b post : (forall i j, M2 i j = sadd (smul a (M0 i j)) (smul b (M1 i j))) ->
    forall pre i j, chain (pre ++ (n, M2) :: post) i j = sadd (smul a (chain (pre ++ (n, M0) :: post) i j)) (smul b (chain (pre ++ (n, M1) :: post) i j)).
  Proof.
    intros H. assert (L : forall n (X : mat K) (Y0 Y1 Y2 : mat K), (forall i j, Y2 i j = sadd (smul a (Y0 i j)) (smul b (Y1 i j))) ->
      forall i j, mmul n X Y2 i j = sadd (smul a (mmul n X Y0 i j)) (smul b (mmul n X Y1 i j))).
    { intros n' X Y0 Y1 Y2 HY i j. unfold mmul. rewrite <- !bsum_mul_l, <- bsum_add. apply bsum_ext. intros k _. rewrite HY. ring. }
    induction pre as [|[p X] pre IH]; intros i j; cbn [app].
    - rewrite !chain_cons. unfold mmul. rewrite <- !bsum_mul_l, <- bsum_add. apply bsum_ext. intros k _. rewrite H. ring.
    - rewrite !chain_cons. apply L. exact IH.
  Qed.
  Lemma seq_at a n k : k < n -> seq a n = seq a k ++ (a + k) :: seq (Datatypes.S (a + k)) (n - k - 1).
  Proof. intros Hk. replace n with (k + Datatypes.S (n - k - 1)) at 1 by lia. rewrite seq_app. reflexivity. Qed.
  (** the factor of site s, and the others, which do not depend on the pixel at s *)
  Lemma factors_at N lab D F w s o : lab <= N -> s < N -> exists pre post : (nat -> vec K) -> list (nat * mat K),
    (forall px, factors N lab D F w px o = pre px ++ fac D F w px s :: post px) /\
    forall px px', (forall s' i, s' < N -> s' <> s -> i < F -> px s' i = px' s' i) -> same_fac (pre px) (pre px') /\ same_fac (post px) (post px').
  Proof.
    intros Hle Hs. destruct (Nat.lt_ge_cases s lab) as [Hl|Hl].
    - exists (fun px => map (fac D F w px) (seq 0 s)), (fun px => map (fac D F w px) (seq (Datatypes.S s) (lab - s - 1)) ++ [(D, w_out w o)] ++ map (fac D F w px) (seq lab (N - lab))). split.
      + intros px. unfold factors. fold (fac D F w px). rewrite (seq_at 0 lab s Hl). cbn [Nat.add]. rewrite map_app, <- app_assoc. reflexivity.
      + intros px px' H. split; [apply same_fac_map; intros s' i Hi; apply in_seq in Hi; apply H; lia|].
        apply Forall2_app; [apply same_fac_map; intros s' i Hi; apply in_seq in Hi; apply H; lia|].
        apply Forall2_app; [apply same_fac_refl|]. apply same_fac_map; intros s' i Hi; apply in_seq in Hi; apply H; lia.
    - exists (fun px => map (fac D F w px) (seq 0 lab) ++ [(D, w_out w o)] ++ map (fac D F w px) (seq lab (s - lab))), (fun px => map (fac D F w px) (seq (Datatypes.S s) (N - s - 1))). split.
      + intros px. unfold factors. fold (fac D F w px). rewrite (seq_at lab (N - lab) (s - lab)) by lia. rewrite map_app, <- !app_assoc. cbn [map app].
        replace (lab + (s - lab)) with s by lia. replace (N - lab - (s - lab) - 1) with (N - s - 1) by lia. reflexivity.
      + intros px px' H. split; [|apply same_fac_map; intros s' i Hi; apply in_seq in Hi; apply H; lia].
        apply Forall2_app; [apply same_fac_map; intros s' i Hi; apply in_seq in Hi; apply H; lia|].
        apply Forall2_app; [apply same_fac_refl|]. apply same_fac_map; intros s' i Hi; apply in_seq in Hi; apply H; lia.
  Qed.
  Lemma value_affine per N lab D F w s o a b px0 px1 px2 : lab <= N -> s < N ->
    (forall s' i, s' < N -> s' <> s -> i < F -> px1 s' i = px0 s' i) -> (forall s' i, s' < N -> s' <> s -> i < F -> px2 s' i = px0 s' i) ->
    (forall i, i < F -> px2 s i = sadd (smul a (px0 s i)) (smul b (px1 s i))) ->
    (forall i j, w_bias w s i j = smul (sadd a b) (w_bias w s i j)) ->
    value per N lab D F w px2 o = sadd (smul a (value per N lab D F w px0 o)) (smul b (value per N lab D F w px1 o)).
  Proof.
    intros Hle Hs H1 H2 Hlin Hb. destruct (factors_at N lab D F w s o Hle Hs) as (pre & post & E & S).
    destruct (S px1 px0 H1) as [A1 B1]. destruct (S px2 px0 H2) as [A2 B2].
    assert (R1 : forall i j, chain (factors N lab D F w px1 o) i j = chain (pre px0 ++ fac D F w px1 s :: post px0) i j).
    { intros i j. rewrite E. apply same_fac_chain. apply Forall2_app; [exact A1|]. constructor; [split; reflexivity|exact B1]. }
    assert (R2 : forall i j, chain (factors N lab D F w px2 o) i j = chain (pre px0 ++ fac D F w px2 s :: post px0) i j).
    { intros i j. rewrite E. apply same_fac_chain. apply Forall2_app; [exact A2|]. constructor; [split; reflexivity|exact B2]. }
    assert (L : forall i j, chain (factors N lab D F w px2 o) i j = sadd (smul a (chain (factors N lab D F w px0 o) i j)) (smul b (chain (factors N lab D F w px1 o) i j))).
    { intros i j. rewrite R1, R2, (E px0). unfold fac. apply chain_lin. intros p q. unfold site_matrix.
      transitivity (sadd (bsum F (fun k => smul (sadd (smul a (px0 s k)) (smul b (px1 s k))) (w_core w s p q k))) (smul (sadd a b) (w_bias w s p q))).
      - rewrite <- Hb. f_equal. apply bsum_ext. intros k Hk. rewrite Hlin by exact Hk. reflexivity.
      - transitivity (sadd (sadd (smul a (bsum F (fun k => smul (px0 s k) (w_core w s p q k)))) (smul b (bsum F (fun k => smul (px1 s k) (w_core w s p q k))))) (smul (sadd a b) (w_bias w s p q))); [|ring].
        f_equal. rewrite <- !bsum_mul_l, <- bsum_add. apply bsum_ext. intros k _. ring. }
    unfold value. destruct per.
    - unfold ring_value, mtrace. rewrite <- !bsum_mul_l, <- bsum_add. apply bsum_ext. intros k _. apply L.
    - unfold train_value. apply L.
  Qed.
  Lemma form_no_bias N O D F m : mps_form N O D F (m_label m) false (m_modules m) -> m_label m <= N -> forall s i j, s < N -> w_bias (weights_of m) s i j = s0.
  Proof.
    intros (l & t & r & E & Hl & Ht & Hr) Hle s i j Hs. cbn [weights_of w_bias]. destruct (Nat.ltb_spec s (m_label m)) as [H|H].
    - unfold first_mod. rewrite E. destruct (m_label m); [lia|]. destruct Hl as (mm & -> & t' & b & -> & _). reflexivity.
    - unfold last_mod. rewrite E. destruct (N - m_label m) eqn:En; [lia|]. destruct Hr as (mm & -> & t' & b & -> & _). rewrite app_assoc, last_last. reflexivity.
  Qed.
End P.
