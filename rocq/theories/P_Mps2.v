(** * P_Mps2: properties C33-C37 and C60 (MPS without adaptive mode, continued) *)
From Verif Require Import Base Scalars Tensor Spec LinAlg Contractables ContrProofs Utils TorchMps TmSpec TmProofs TmFinal P_Mps.

(** ** C33 *)
Section C33.
  Variable K : cring.
  Add Ring Kr : (rth K).
  (** an input region fails in the same way or computes the same thing whatever the global batch
      size is, and sets it *)
  Lemma region_history t ub b n D F x : shp t = [n; D; D; F] -> bias_ok K ub b n D ->
    (exists e, forall g, mod_forward K (InputRegion t ub b) x g = (Err e, g)) \/
    (exists a B, forall g, mod_forward K (InputRegion t ub b) x g = (Ok a, Some B)).
  Proof.
    intros Ht Hb. cbn [mod_forward mod_len]. unfold mbind, lift, size. rewrite Ht. cbn [nth].
    destruct (Nat.eqb_spec (ndim x) 3) as [H3|H3]; [|left; exists AssertionError; reflexivity]. cbn [assert_].
    unfold ndim in H3. destruct (shp x) as [|B [|n' [|f [|]]]] eqn:Hx; try discriminate H3. cbn [nth].
    destruct (Nat.eqb_spec n' n) as [->|]; [|left; exists AssertionError; reflexivity]. cbn [assert_].
    destruct (Nat.eqb_spec f F) as [->|]; [|left; exists AssertionError; reflexivity]. cbn [assert_].
    destruct (e_region_in K t x n D D F B Ht Hx) as (v & -> & Hv & _).
    destruct ub.
    - destruct (Hb eq_refl) as (bm & -> & Hs). destruct (bias_add K v bm B n D Hv Hs) as (w & -> & Hw & _).
      right. eexists _, B. intros g. apply mat_region_ok with (n := n) (D := D). exact Hw.
    - right. eexists _, B. intros g. apply mat_region_ok with (n := n) (D := D). exact Hv.
  Qed.
  (** With label_site > 0 the result (a tensor or an exception) of a call depends on the model
      and its input only: any earlier calls of any models leave some value g or g' in the global
      batch size. *)
  Theorem C33_no_history_partial N O D F per par label path std ub rnd m0 m :
    mps_init K N O D F per par label path std ub rnd = Ok m0 -> trained m0 m -> 0 < m_label m ->
    forall x g g', fst (mps_forward K m x g) = fst (mps_forward K m x g').
  Proof.
    intros Hi Ht Hl x g g'. pose proof (model_built K _ _ _ _ _ _ _ _ _ _ _ _ _ Hi Ht) as Hb.
    pose proof (model_label K _ _ _ _ _ _ _ _ _ _ _ _ _ Hi Ht) as El. rewrite El in Hl.
    destruct (b_form K _ _ _ _ _ _ _ _ _ _ Hb) as (l & t & r & Em & Hll & _ & _).
    destruct (label_site N label) as [|lb]; [lia|]. destruct Hll as (mm & -> & tt' & bb & -> & Hsh & Hbb).
    unfold mps_forward, mbind, lift. destruct (route K (m_path m) x) as [y|]; [|reflexivity].
    destruct (mps_embed K m y) as [e|]; [|reflexivity].
    unfold region_forward, mbind, lift. destruct (assert_ (ndim e =? 3)); [|reflexivity]. destruct (assert_ (size 1 e =? region_len K (m_modules m))); [|reflexivity].
    rewrite Em. cbn [app mods_forward].
    unfold mbind. set (inp := if mod_len (InputRegion _ _ _) =? 1 then _ else _).
    destruct (region_history tt' ub bb _ D F inp Hsh Hbb) as [(ex & E)|(at0 & B0 & E)]; rewrite !E; reflexivity.
  Qed.

  (** With label_site = 0 the output core is expanded to the batch size of the last call: on the
      first call ever it raises *)
  Theorem C33_label_zero_first_call N O D F per par label path std ub rnd m0 m x B :
    mps_init K N O D F per par label path std ub rnd = Ok m0 -> trained m0 m -> no_path path -> m_label m = 0 ->
    shp x = [B; N; F] -> mps_forward K m x None = (Err RuntimeError, None).
  Proof.
    intros Hi Ht Hp Hl Hx. pose proof (model_built K _ _ _ _ _ _ _ _ _ _ _ _ _ Hi Ht) as Hb.
    pose proof (model_label K _ _ _ _ _ _ _ _ _ _ _ _ _ Hi Ht) as El. rewrite Hl in El. rewrite <- El in Hb.
    destruct (b_form K _ _ _ _ _ _ _ _ _ _ Hb) as (l & t & r & Em & Hll & Hts & _). cbn [region_list] in Hll. subst l.
    rewrite (mps_forward_eq K m x None x x).
    - unfold region_forward, mbind, lift, ndim, size. rewrite Hx. cbn [List.length Nat.eqb nth assert_].
      rewrite (form_len K _ _ _ _ _ _ _ (b_le K _ _ _ _ _ _ _ _ _ _ Hb) (b_form K _ _ _ _ _ _ _ _ _ _ Hb)), Nat.eqb_refl. cbn [assert_].
      rewrite Em. cbn [app mods_forward mod_len Nat.eqb mod_forward]. unfold mbind, output_core, ndim. rewrite Hts. cbn [List.length Nat.eqb orb].
      unfold init, ndim. rewrite Hts. reflexivity.
    - apply route_off. rewrite (b_path K _ _ _ _ _ _ _ _ _ _ Hb). apply no_path_off. exact Hp.
    - apply mps_embed_pre with (B := B). rewrite (b_in K _ _ _ _ _ _ _ _ _ _ Hb), (b_feat K _ _ _ _ _ _ _ _ _ _ Hb). exact Hx.
  Qed.
End C33.
Definition tick (k : nat) (i : list nat) : Z := Z.of_nat (1 + k + fold_right Nat.add 0 i).
Definition pix (B N F : nat) : tensor Z_cring := mkT [B; N; F] (fun i => Z.of_nat (fold_right Nat.add 0 i)).
Definition history (calls : list (mps Z_cring * tensor Z_cring)) : gbs :=
  fold_left (fun g c => snd (mps_forward Z_cring (fst c) (snd c) g)) calls None.
Definition get_mps (r : res (mps Z_cring)) : mps Z_cring :=
  match r with Ok m => m | Err _ => mkMps Z_cring 0 0 0 0 false false 0 PNone false [] None end.
Lemma shape_out (r : res (tensor Z_cring)) s : match r with Ok o => Some (shp o) | Err _ => None end = Some s -> exists out, r = Ok out /\ shp out = s.
Proof. destruct r as [o|]; intros H; [|discriminate]. injection H as H. eauto. Qed.
(** The same model and input: a correct result after a call with the same batch size, an exception
    after a call with batch size 3, and when the batch has one element, a result with three rows
    instead of one, silently. *)
Theorem C33_history_refuted : exists (m other : mps Z_cring) x2 x1,
  mps_init Z_cring 2 2 2 2 false false (Some 0%Z) PNone (1%Z : Z_cring) true tick = Ok m /\
  mps_init Z_cring 4 2 2 2 false false None PNone (1%Z : Z_cring) true tick = Ok other /\
  shp x2 = [2; 2; 2] /\ shp x1 = [1; 2; 2] /\
  history [(other, pix 2 4 2)] = Some 2 /\ history [(other, pix 3 4 2)] = Some 3 /\
  (exists out, fst (mps_forward Z_cring m x2 (history [(other, pix 2 4 2)])) = Ok out /\ shp out = [2; 2]) /\
  fst (mps_forward Z_cring m x2 (history [(other, pix 3 4 2)])) = Err RuntimeError /\
  fst (mps_forward Z_cring m x2 (history [])) = Err RuntimeError /\
  (exists out, fst (mps_forward Z_cring m x1 (history [(other, pix 3 4 2)])) = Ok out /\ shp out = [3; 2]).
Proof.
  set (rm := mps_init Z_cring 2 2 2 2 false false (Some 0%Z) PNone (1%Z : Z_cring) true tick).
  set (ro := mps_init Z_cring 4 2 2 2 false false None PNone (1%Z : Z_cring) true tick).
  assert (Hm : rm = Ok (get_mps rm)).
  { unfold rm. destruct (C34_constructor Z_cring 2 2 2 2 false false (Some 0%Z) PNone (1%Z : Z_cring) true tick) as (m & Em & _); [lia|left; left; reflexivity|]. rewrite Em. reflexivity. }
  assert (Ho : ro = Ok (get_mps ro)).
  { unfold ro. destruct (C34_constructor Z_cring 4 2 2 2 false false None PNone (1%Z : Z_cring) true tick Logic.I) as (m & Em & _); [left; left; reflexivity|]. rewrite Em. reflexivity. }
  exists (get_mps rm), (get_mps ro), (pix 2 2 2), (pix 1 2 2).
  split; [exact Hm|]. split; [exact Ho|]. clear Hm Ho. split; [reflexivity|]. split; [reflexivity|].
  split; [vm_compute; reflexivity|]. split; [vm_compute; reflexivity|].
  split; [apply shape_out; vm_compute; reflexivity|].
  split; [vm_compute; reflexivity|]. split; [vm_compute; reflexivity|].
  apply shape_out; vm_compute; reflexivity.
Qed.

(** ** C34 *)
Section C34.
  Variable K : cring.
  (** A region of exactly one site is given an input with two axes instead of three and fails,
      whatever the parameters and the batch. *)
  Theorem C34_one_site_region_fails N O D F per par label path std ub rnd m0 m x B g :
    mps_init K N O D F per par label path std ub rnd = Ok m0 -> trained m0 m -> no_path path ->
    m_label m = 1 \/ N - m_label m = 1 -> 0 < m_label m \/ g = Some B -> shp x = [B; N; F] ->
    fst (mps_forward K m x g) = Err AssertionError.
  Proof.
    intros Hi Ht Hp Hl Hg Hx. pose proof (model_built K _ _ _ _ _ _ _ _ _ _ _ _ _ Hi Ht) as Hb.
    pose proof (model_label K _ _ _ _ _ _ _ _ _ _ _ _ _ Hi Ht) as El. rewrite El in *. set (lab := label_site N label) in *.
    destruct (b_form K _ _ _ _ _ _ _ _ _ _ Hb) as (l & t & r & Em & Hll & Hts & Hr).
    rewrite (mps_forward_eq K m x g x x).
    2: { apply route_off. rewrite (b_path K _ _ _ _ _ _ _ _ _ _ Hb). apply no_path_off. exact Hp. }
    2: { apply mps_embed_pre with (B := B). rewrite (b_in K _ _ _ _ _ _ _ _ _ _ Hb), (b_feat K _ _ _ _ _ _ _ _ _ _ Hb). exact Hx. }
    unfold region_forward, mbind, lift, ndim, size. rewrite Hx. cbn [List.length Nat.eqb nth assert_].
    rewrite (form_len K _ _ _ _ _ _ _ (b_le K _ _ _ _ _ _ _ _ _ _ Hb) (b_form K _ _ _ _ _ _ _ _ _ _ Hb)), Nat.eqb_refl. cbn [assert_].
    assert (E : exists g', mods_forward K (m_modules m) 0 x g = (Err AssertionError, g')); [|destruct E as (g' & ->); reflexivity].
    assert (Short : forall q ind g0, region_list K 1 D F ub q -> exists g', mods_forward K q ind x g0 = (Err AssertionError, g')).
    { intros q ind g0 (mm & -> & t' & b & -> & Hsh & _). cbn [mods_forward mod_len]. unfold size. rewrite Hsh. cbn [nth Nat.eqb].
      exists g0. unfold mbind. cbn [mod_forward]. unfold mbind, lift, ndim, selE. cbn [shp]. rewrite Hx. reflexivity. }
    assert (App : forall q q' ind g0, (exists g', mods_forward K q ind x g0 = (Err AssertionError, g')) -> exists g', mods_forward K (q ++ q') ind x g0 = (Err AssertionError, g')).
    { induction q as [|a q IH]; intros q' ind g0 (g' & E); [discriminate E|]. cbn [app mods_forward] in *. unfold mbind in *.
      destruct (mod_forward K a _ g0) as [[at'|ex] g1]; [|eauto].
      destruct (mods_forward K q (ind + mod_len a) x g1) as [[lq|ex] g2] eqn:Eq; [discriminate E|]. injection E as -> ->.
      destruct (IH q' _ _ (ex_intro _ _ Eq)) as (g3 & ->). eauto. }
    assert (Skip : forall q q' ind g0 lq g1, mods_forward K q ind x g0 = (Ok lq, g1) ->
      (exists g', mods_forward K q' (ind + region_len K q) x g1 = (Err AssertionError, g')) -> exists g', mods_forward K (q ++ q') ind x g0 = (Err AssertionError, g')).
    { induction q as [|a q IH]; intros q' ind g0 lq g1 E (g' & E').
      - injection E as _ <-. cbn [region_len fold_right] in E'. rewrite Nat.add_0_r in E'. eauto.
      - cbn [app mods_forward] in *. unfold mbind in *. destruct (mod_forward K a _ g0) as [[at'|ex] g2]; [|discriminate].
        destruct (mods_forward K q (ind + mod_len a) x g2) as [[lq'|ex] g3] eqn:Eq; [|discriminate]. injection E as _ <-.
        destruct (IH q' _ _ _ _ Eq) as (g4 & ->); [|eauto]. exists g'. cbn [region_len fold_right] in E'. unfold region_len. rewrite <- E'. f_equal. lia. }
    rewrite Em. destruct (Nat.eq_dec lab 1) as [E1|E1].
    - rewrite E1 in Hll. apply App. apply Short. exact Hll.
    - destruct Hl as [Hl|Hl]; [contradiction|]. rewrite Hl in Hr.
      destruct (region_list_wf K _ _ _ O _ _ Hll E1) as (W1 & S1 & O1 & _).
      destruct (mods_forward_ok K D F O (l ++ [OutputSite t]) x B N Hx 0 g) as (lq & Eq & _).
      + apply Forall_app. split; [exact W1|constructor; [exact Hts|constructor]].
      + apply Forall_app. split; [exact S1|constructor; [exact Logic.I|constructor]].
      + unfold outs in *. rewrite filter_app, O1. cbn. lia.
      + clear -Hll Hg. destruct lab as [|lab]; cbn [region_list] in Hll; [subst l; cbn; intros _; destruct Hg; [lia|assumption]|].
        destruct Hll as (mm & -> & t' & b & -> & _). cbn. discriminate.
      + rewrite app_assoc. eapply Skip; [exact Eq|]. apply Short. exact Hr.
  Qed.
End C34.
(** the default label site of models with two or three inputs is 1 *)
Theorem C34_refuted : exists (m : mps Z_cring) x,
  mps_init Z_cring 3 2 2 2 false false None PNone (1%Z : Z_cring) true tick = Ok m /\ shp x = [1; 3; 2] /\
  forall g, fst (mps_forward Z_cring m x g) = Err AssertionError.
Proof.
  destruct (C34_constructor Z_cring 3 2 2 2 false false None PNone (1%Z : Z_cring) true tick Logic.I (or_introl (or_introl eq_refl))) as (m & Em & Ht & El).
  exists m, (pix 1 3 2). split; [exact Em|]. split; [reflexivity|]. intros g.
  eapply C34_one_site_region_fails; try eassumption; [left; reflexivity|left; rewrite El; reflexivity|left; rewrite El; cbn; lia|reflexivity].
Qed.
