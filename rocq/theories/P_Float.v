(** * P_Float: property C95, rounding errors of MPS.forward and TI_MPS.forward.
    [rounded u fop op]: fop is op followed by a rounding of relative error <= u; [on_fl m]: the model m computed with
    such operations; [magnitude]: the same contraction with the absolute values of all numbers (FloatSpec.v). *)
From Coq Require Import Reals Lra.
From Verif Require Import Base Scalars Tensor Spec LinAlg Contractables Utils TorchMps TmSpec TmProofs TmFinal P_Mps FloatSpec Param ParamMul ParamFwd ParamMps Float.

Section Arithmetic.
  Variables (u : R) (fadd fmul fsub : R -> R -> R).
  Hypotheses (Hu : (0 <= u)%R) (Hadd : rounded u fadd Rplus) (Hmul : rounded u fmul Rmult) (Hsub : rounded u fsub Rminus).
  Notation FL := (fl_ops fadd fmul fsub).
  Notation on_fl := (on_fl fadd fmul fsub).

  (** every model, every input: the computation in floating point raises exactly when the exact one does, and is close to it *)
  Theorem C95_forward D F m x g : Forall (sized D F) (m_modules m) ->
    match mps_forward R_ops m x g with
    | (Err e, g') => mps_forward FL (on_fl m) x g = (Err e, g')
    | (Ok T, g') => exists T' e A, mps_forward FL (on_fl m) x g = (Ok T', g') /\ site_input m x = Ok e /\ magnitude m e g = (Ok A, g') /\
        shp T' = shp T /\ shp A = shp T /\
        forall i, List.length i = List.length (shp T) ->
          (Rabs (get T' i - get T i) <= ((1 + u) ^ roundings D F (input_roundings m x) (m_modules m) - 1) * get A i)%R /\ (Rabs (get T i) <= get A i)%R
    end.
  Proof. exact (mps_float u fadd fmul fsub Hu Hadd Hmul Hsub D F m x g). Qed.
  Theorem C95_ti m i g : ti_sized m ->
    match ti_forward R_ops m i g with
    | (Err e, g') => ti_forward FL (ti_on_fl fadd fmul fsub m) (in_on_fl fadd fmul fsub i) g = (Err e, g')
    | (Ok T, g') => exists T' e A, ti_forward FL (ti_on_fl fadd fmul fsub m) (in_on_fl fadd fmul fsub i) g = (Ok T', g') /\ ti_format R_ops m i = Ok e /\
        ti_magnitude m e g = (Ok A, g') /\ shp T' = shp T /\ shp A = shp T /\
        forall j, List.length j = List.length (shp T) ->
          (Rabs (get T' j - get T j) <= ((1 + u) ^ (Nat.max 1 (size 1 e) * (ti_input_roundings m i + t_feature m + t_bond m + 3) + t_bond m + 1)%nat - 1) * get A j)%R /\ (Rabs (get T j) <= get A j)%R
    end.
  Proof. exact (ti_float u fadd fmul fsub Hu Hadd Hmul Hsub m i g). Qed.

  (** (1+u)^k - 1 <= k u / (1 - k u) *)
  Lemma gamma_bound (k : nat) : (INR k * u < 1)%R -> ((1 + u) ^ k - 1 <= INR k * u / (1 - INR k * u))%R.
  Proof.
    intros H. assert (Q : ((1 + u) ^ k * (1 - INR k * u) <= 1)%R).
    { clear H. induction k as [|k IH]; [cbn; lra|]. rewrite S_INR. cbn [pow].
      assert (P : (1 <= (1 + u) ^ k)%R) by (apply pow_R1_Rle; lra). set (p := ((1 + u) ^ k)%R) in *. set (q := INR k) in *.
      assert (Hq : (0 <= q)%R) by apply pos_INR.
      replace ((1 + u) * p * (1 - (q + 1) * u))%R with (p * (1 - q * u) - p * ((q + 1) * (u * u)))%R by ring.
      assert (0 <= p * ((q + 1) * (u * u)))%R; [|lra]. apply Rmult_le_pos; [lra|]. apply Rmult_le_pos; [lra|]. apply Rle_0_sqr. }
    set (d := (1 - INR k * u)%R) in *. assert (Hd : (0 < d)%R) by (unfold d; lra).
    apply Rmult_le_reg_r with d; [exact Hd|]. unfold Rdiv. rewrite Rmult_assoc, Rinv_l by lra. rewrite Rmult_1_r. unfold d in *. lra.
  Qed.
End Arithmetic.

(** ** the models made by the constructor *)
(** |A_s|, |B_s| and |O_o| *)
Definition abs_weights (w : weights R_cring) : weights R_cring :=
  mkW (K := R_cring) (fun s l r i => Rabs (w_core w s l r i)) (fun s l r => Rabs (w_bias w s l r)) (fun o l r => Rabs (w_out w o l r)).
(** the contraction: a product of matrices between the first unit vectors, or its trace *)
Definition contraction (periodic : bool) N lab D F (w : weights R_cring) (x : nat -> vec R_cring) (o : nat) : R :=
  if periodic then ring_value N lab D F w x o else train_value N lab D F w x o.

Lemma same_weights N lab D F (w w' : weights R_cring) x o : 
  (forall s l r i, w_core w s l r i = w_core w' s l r i) -> (forall s l r, w_bias w s l r = w_bias w' s l r) -> (forall l r, w_out w o l r = w_out w' o l r) ->
  same_fac R_cring (factors N lab D F w x o) (factors N lab D F w' x o).
Proof.
  intros Hc Hb Ho. assert (M : forall l, same_fac R_cring (map (fun s => (D, site_matrix F (w_core w s) (w_bias w s) (x s))) l) (map (fun s => (D, site_matrix F (w_core w' s) (w_bias w' s) (x s))) l)).
  { induction l as [|s l IH]; [constructor|]. constructor; [|exact IH]. split; [reflexivity|]. intros i j. cbn [snd]. unfold site_matrix. f_equal; [|apply Hb]. apply bsum_ext. intros k _. rewrite Hc. reflexivity. }
  unfold factors. apply Forall2_app; [apply M|]. apply Forall2_app; [|apply M]. constructor; [|constructor]. split; [reflexivity|]. intros i j. apply Ho.
Qed.
Lemma contraction_ext per N lab D F (w w' : weights R_cring) x o : 
  (forall s l r i, w_core w s l r i = w_core w' s l r i) -> (forall s l r, w_bias w s l r = w_bias w' s l r) -> (forall l r, w_out w o l r = w_out w' o l r) ->
  contraction per N lab D F w x o = contraction per N lab D F w' x o.
Proof.
  intros Hc Hb Ho. pose proof (same_weights N lab D F w w' x o Hc Hb Ho) as S. unfold contraction. destruct per.
  - unfold ring_value, mtrace. apply (bsum_ext (S := R_cring)). intros k _. apply same_fac_chain. exact S.
  - unfold train_value. exact (same_fac_chain R_cring _ _ S 0 0).
Qed.

Lemma last_map {A} (f : A -> A) (q : list A) d : 1 <= List.length q -> last (map f q) d = f (last q d).
Proof. intros H. induction q as [|a q IH]; [cbn in H; lia|]. destruct q as [|b q]; [reflexivity|]. apply IH. cbn. lia. Qed.
Section Model.
  Variables (N O D F : nat) (per par ub : bool) (lab : nat) (path : mpath) (m : mps R_cring).
  Hypothesis Hb : built R_cring N O D F per par lab path ub m.
  Lemma abs_region n l : region_list R_cring n D F ub l -> region_list R_cring n D F ub (map (map_mod tabs) l).
  Proof.
    destruct n; cbn [region_list]; [intros ->; reflexivity|]. intros (md & -> & t & b & -> & Ht & Hbo). eexists. split; [reflexivity|].
    exists (tabs t), (option_map tabs b). split; [reflexivity|]. split; [exact Ht|]. intros Hub. destruct (Hbo Hub) as (bb & -> & Hs). exists (tabs bb). split; [reflexivity|exact Hs].
  Qed.
  Lemma abs_built : built R_cring N O D F per par lab PNone ub (map_mps (K' := R_cring) tabs None PNone m).
  Proof.
    destruct Hb as [H1 H2 H3 H4 H5 H6 H7 H8 H9 (l & t & r & E & Hl & Ht & Hr)]. constructor; try assumption; try reflexivity.
    exists (map (map_mod (K' := R_cring) tabs) l), (tabs t), (map (map_mod (K' := R_cring) tabs) r).
    split; [change (map (map_mod (K' := R_cring) tabs) (m_modules m) = map (map_mod (K' := R_cring) tabs) l ++ [OutputSite (tabs t)] ++ map (map_mod (K' := R_cring) tabs) r); eapply eq_trans; [exact (f_equal (map (map_mod (K' := R_cring) tabs)) E)|]; exact (eq_trans (map_app _ _ _) (f_equal (app _) (map_app _ _ _)))|].
    split; [apply abs_region, Hl|]. split; [exact Ht|apply abs_region, Hr].
  Qed.
  Lemma abs_of_mod (md : module R_ops) i : get (mod_tensor (map_mod tabs md)) i = Rabs (get (mod_tensor md) i).
  Proof. destruct md; reflexivity. Qed.
  Lemma abs_of_bias (md : module R_cring) l r : mod_bias (map_mod (K' := R_cring) tabs md) l r = Rabs (mod_bias md l r).
  Proof. destruct md as [t [|] [b|]|t|t|t|t lo]; cbn [mod_bias map_mod option_map]; try (symmetry; exact Rabs_R0). reflexivity. Qed.
  Lemma abs_weights_of per' x o : contraction per' N lab D F (weights_of (map_mps (K' := R_cring) tabs None PNone m)) x o = contraction per' N lab D F (abs_weights (weights_of m)) x o.
  Proof.
    destruct Hb as [H1 H2 H3 H4 H5 H6 H7 H8 H9 (l & t & r & E & Hl & Ht & Hr)].
    assert (Em : forall k, k < List.length (m_modules m) -> nth k (map (map_mod (K' := R_cring) tabs) (m_modules m)) (OutputSite (no_tensor R_cring)) = map_mod (K' := R_cring) tabs (nth k (m_modules m) (OutputSite (no_tensor R_cring)))).
    { intros k Hk. rewrite (nth_indep _ _ (map_mod (K' := R_cring) tabs (OutputSite (no_tensor R_cring)))) by (rewrite map_length; exact Hk). apply map_nth. }
    assert (L : 1 <= List.length (m_modules m) /\ (0 <? m_label m = true -> 2 <= List.length (m_modules m))).
    { rewrite E, !app_length. cbn [List.length]. split; [lia|]. rewrite H7. intros Q. apply Nat.ltb_lt in Q. destruct lab; [lia|]. cbn [region_list] in Hl. destruct Hl as (? & -> & _). cbn [List.length]. lia. }
    assert (Ef : first_mod (map_mps (K' := R_cring) tabs None PNone m) = map_mod (K' := R_cring) tabs (first_mod m)) by (unfold first_mod; cbn [map_mps m_modules]; apply Em; lia).
    assert (Eo : out_mod (map_mps (K' := R_cring) tabs None PNone m) = map_mod (K' := R_cring) tabs (out_mod m)).
    { unfold out_mod. cbn [map_mps m_modules m_label]. apply Em. destruct (0 <? m_label m); [apply L; reflexivity|lia]. }
    assert (El : last_mod (map_mps (K' := R_cring) tabs None PNone m) = map_mod (K' := R_cring) tabs (last_mod m)).
    { exact (last_map (map_mod (K' := R_cring) tabs) (m_modules m) _ (proj1 L)). }
    apply contraction_ext; unfold abs_weights, weights_of; cbn [w_core w_bias w_out map_mps m_label].
    - intros s l0 r0 i. rewrite Ef, El. change (@m_label R_ops m) with (@m_label R_cring m). destruct (s <? m_label m); apply abs_of_mod.
    - intros s l0 r0. rewrite Ef, El. change (@m_label R_ops m) with (@m_label R_cring m). destruct (s <? m_label m); apply abs_of_bias.
    - intros l0 r0. rewrite Eo. apply abs_of_mod.
  Qed.
  Lemma built_sized : Forall (sized D F) (m_modules m).
  Proof.
    destruct Hb as [H1 H2 H3 H4 H5 H6 H7 H8 H9 (l & t & r & E & Hl & Ht & Hr)]. rewrite E.
    assert (R : forall n q, region_list R_cring n D F ub q -> Forall (sized D F) q).
    { intros n q. destruct n; cbn [region_list]; [intros ->; constructor|]. intros (md & -> & t' & b & -> & Ht' & _). constructor; [|constructor]. cbn [sized]. exists (S n), D, D, F. auto. }
    apply Forall_app. split; [eapply R; exact Hl|]. apply Forall_app. split; [|eapply R; exact Hr]. constructor; [|constructor]. exists O, D, D. auto.
  Qed.
  Lemma built_roundings kx : roundings D F kx (m_modules m) = N * (kx + F + D + 3) + 2 * (D + 1).
  Proof.
    destruct Hb as [H1 H2 H3 H4 H5 H6 H7 H8 H9 (l & t & r & E & Hl & Ht & Hr)]. rewrite E. unfold roundings.
    assert (R : forall n q z, region_list R_cring n D F ub q -> fold_right (fun md n => mod_roundings D F kx md + n) z q = n * (kx + F + D + 3) + z).
    { intros n q z. destruct n as [|n]; cbn [region_list]; [intros ->; reflexivity|]. intros (md & -> & t' & b & -> & Ht' & _). cbn [fold_right mod_roundings].
      unfold size. replace (nth 0 (shp t') 0) with (S n) by (rewrite Ht'; reflexivity). rewrite Nat.max_r by lia. lia. }
    rewrite !fold_right_app. rewrite (R _ _ _ Hr). cbn [fold_right mod_roundings]. rewrite (R _ _ _ Hl).
    assert (lab + (N - lab) = N) by lia. nia.
  Qed.
End Model.

Section Value.
  Variables (u : R) (fadd fmul fsub : R -> R -> R).
  Hypotheses (Hu : (0 <= u)%R) (Hadd : rounded u fadd Rplus) (Hmul : rounded u fmul Rmult) (Hsub : rounded u fsub Rminus).
  Notation FL := (fl_ops fadd fmul fsub).
  Notation on_fl := (on_fl fadd fmul fsub).
  (** a model from the constructor, with any parameters, path and feature map; e is what its sites get *)
  Theorem C95_value N O D F per par label path std ub rnd m0 m x e B g :
    mps_init R_cring N O D F per par label path std ub rnd = Ok m0 -> trained m0 m ->
    good_label N (m_label m) -> (if per then 1 <= N else 0 < D) ->
    site_input m x = Ok e -> shp e = [B; N; F] -> 0 < m_label m \/ g = Some B ->
    exists out, mps_forward FL (on_fl m) x g = (Ok out, Some B) /\ shp out = [B; O] /\
      forall b o, b < B -> o < O ->
        (Rabs (get out [b; o] - contraction per N (m_label m) D F (weights_of m) (fun s i => get e [b; s; i]) o) <=
         ((1 + u) ^ (N * (input_roundings m x + F + D + 3) + 2 * (D + 1))%nat - 1) *
         contraction per N (m_label m) D F (abs_weights (weights_of m)) (fun s i => Rabs (get e [b; s; i])) o)%R.
  Proof.
    intros Hi Ht [L1 L2] Hc He Hs Hg. pose proof (init_built _ _ _ _ _ _ _ _ _ _ _ _ _ _ Hi Ht) as Hb. set (lab := match label with None => N / 2 | Some z => Z.to_nat z end) in *.
    pose proof (b_lab _ _ _ _ _ _ _ _ _ _ _ Hb) as Elab. rewrite Elab in *.
    destruct (region_value R_cring _ _ _ _ _ _ par _ _ _ _ e B g Hb L1 L2 Hg Hc Hs) as (T & ET & HT & GT).
    destruct (region_value R_cring _ _ _ _ _ _ par _ _ _ _ (tabs e) B g (abs_built _ _ _ _ _ _ _ _ _ _ Hb) L1 L2 Hg Hc Hs) as (A & EA & HA & GA).
    pose proof (C95_forward u fadd fmul fsub Hu Hadd Hmul Hsub D F m x g (built_sized _ _ _ _ _ _ _ _ _ _ Hb)) as H.
    assert (Ef : mps_forward R_ops m x g = (Ok T, Some B)).
    { unfold site_input in He. destruct (route R_ops (@m_path R_ops m) x) as [y|] eqn:Er; [|discriminate He]. cbn [rbind] in He.
      eapply eq_trans; [exact (mps_forward_eq R_cring m x g y e Er He)|]. rewrite (b_per _ _ _ _ _ _ _ _ _ _ _ Hb), (b_par _ _ _ _ _ _ _ _ _ _ _ Hb). exact ET. }
    rewrite Ef in H. destruct H as (T' & e' & A' & E1 & E2 & E3 & S1 & S2 & Bd). rewrite He in E2. injection E2 as <-.
    assert (Em : magnitude m e g = (Ok A, Some B)).
    { unfold magnitude. eapply eq_trans; [eapply (mps_forward_eq R_cring (map_mps (K' := R_cring) tabs None PNone m) (tabs e) g (tabs e) (tabs e))|].
      - reflexivity.
      - apply (mps_embed_pre R_cring _ _ B). pose proof (abs_built _ _ _ _ _ _ _ _ _ _ Hb) as Ha. rewrite (b_in _ _ _ _ _ _ _ _ _ _ _ Ha), (b_feat _ _ _ _ _ _ _ _ _ _ _ Ha). exact Hs.
      - pose proof (abs_built _ _ _ _ _ _ _ _ _ _ Hb) as Ha. rewrite (b_per _ _ _ _ _ _ _ _ _ _ _ Ha), (b_par _ _ _ _ _ _ _ _ _ _ _ Ha). exact EA. }
    rewrite Em in E3. injection E3 as <-.
    exists T'. split; [exact E1|]. split; [exact (eq_trans S1 HT)|]. intros b o Hbb Ho. pose proof (built_roundings _ _ _ _ _ _ _ _ _ _ Hb (input_roundings m x)) as Ek.
    destruct (Bd [b; o]) as [X _]; [change (shp T) with (shp (A := R_cring) T); rewrite HT; reflexivity|].
    pose proof (GT b o Hbb Ho) as V1. pose proof (GA b o Hbb Ho) as V2.
    change (value R_cring per) with (contraction per) in V1. change (value R_cring per) with (contraction per) in V2.
    pose proof (abs_weights_of _ _ _ _ _ _ _ _ _ _ Hb per (fun s i => get (tabs e) [b; s; i]) o) as V3.
    assert (Q1 : get (A := R) T [b; o] = contraction per N lab D F (weights_of m) (fun s i => get e [b; s; i]) o) by exact V1.
    assert (Q2 : get (A := R) A [b; o] = contraction per N lab D F (abs_weights (weights_of m)) (fun s i => Rabs (get e [b; s; i])) o) by exact (eq_trans V2 V3).
    rewrite <- Q1, <- Q2, <- Ek. exact X.
  Qed.
End Value.
