(** * P_Init: C63-C66, freshly constructed ProbMPS and ProbUnifMPS (torchmps/prob_mps.py) *)
From Coq Require Import Ring_theory Ring Reals Lra Permutation.
From Verif Require Import Base Scalars Tensor Utils2 MpsBase Embeddings ProbMps ProbInit Spec MatSpec ModelSpec
  LinAlg Utils2Proofs EinsumProofs MatseqProofs SlimProofs LogNorm ProbProofs P_Utils2 P_Prob P_Sym.

(** the shape of the core of a model for sequences of length [n] (None: any length) *)
Definition core_shape (n : option Z) (d D : Z) : list nat :=
  (match n with Some n => [Z.to_nat n] | None => [] end) ++ [Z.to_nat d; Z.to_nat D; Z.to_nat D].
Definition positive_sizes (n : option Z) (d D : Z) : Prop :=
  (match n with Some n => 0 < n | None => True end)%Z /\ (0 < d)%Z /\ (0 < D)%Z.
Definition known_method (s : string) : Prop := s = "near_eye"%string \/ s = "normal"%string.

Lemma init_core_ok n d D c s z u : known_method s -> (0 < D)%Z ->
  exists t, init_core s (core_shape n d D) c z u = Ok t /\ shp t = core_shape n d D.
Proof.
  intros Hs HD. set (z' := mkT (core_shape n d D) (get z)).
  assert (E : init_core s (core_shape n d D) c z u = init_core s (core_shape n d D) c z' u) by reflexivity. rewrite E.
  destruct Hs as [H|H]; subst s; unfold init_core; cbn [String.eqb Ascii.eqb Bool.eqb orb assert_ rbind]; unfold core_shape.
  - destruct (C28_near_eye_init (match n with Some n => [Z.to_nat n] | None => [] end) (Z.to_nat d) (Z.to_nat D) (Z.to_nat D) c (1 / 1000) z' u) as (t & Et & Ht & _); eauto.
  - destruct (C29_normal_init_partial (match n with Some n => [Z.to_nat n] | None => [] end) (Z.to_nat d) (Z.to_nat D) (Z.to_nat D) c 1 z' u) as (t & Et & Ht & _); eauto. lia.
Qed.
Lemma init_core_shape n d D : match n with Some n => [Z.to_nat n; Z.to_nat d; Z.to_nat D; Z.to_nat D] | None => [Z.to_nat d; Z.to_nat D; Z.to_nat D] end = core_shape n d D.
Proof. destruct n; reflexivity. Qed.
Lemma init_edge_ok D c z u : exists e, init_edge D c z u = Ok e /\ shp e = [2; D] /\
  forall k i, k < 2 -> i < D -> get e [k; i] = (if c then c_mul (c_ofR (get z [i] / sqrt (INR D))) (phase (get u [k; i])) else c_ofR (get z [i] / sqrt (INR D))).
Proof.
  unfold init_edge, stack0. cbn [forallb shp]. rewrite !list_eqb_refl. cbn [andb rbind]. eexists. split; [reflexivity|].
  split; [destruct c; reflexivity|]. intros [|[|k]] i Hk Hi; [| |lia]; destruct c; reflexivity.
Qed.
Lemma sizes_assert n d D : (match n with Some n => (0 <? n)%Z | None => true end && (0 <? d)%Z && (0 <? D)%Z) = true <-> positive_sizes n d D.
Proof.
  unfold positive_sizes. rewrite !andb_true_iff, !Z.ltb_lt. destruct n; [rewrite Z.ltb_lt; tauto|tauto].
Qed.

(** ** C63 *)
(** An accepted call returns a model with the requested sizes, for which all the theorems about
    models with [shapes_of] hold; it reports these sizes. *)
Theorem C63_constructed (n : option Z) (d D : Z) (c ub : bool) (s : string) (a : embed_arg C_num) dom r e :
  positive_sizes n d D -> known_method s -> setup_embedding C_num (Z.to_nat d) a dom = Ok e ->
  exists m, prob_init n d D c ub s a dom r = Ok m /\ pm_emb C_num m = e /\ attr_use_bias C_num m = ub /\
    let uniform := match n with None => true | Some _ => false end in
    attr_input_dim C_num uniform m = Z.to_nat d /\ attr_bond_dim C_num uniform m = Z.to_nat D /\
    (forall k, n = Some k -> attr_seq_len C_num m = Z.to_nat k) /\
    forall len, (match n with Some k => len = Z.to_nat k | None => True end) ->
      shapes_of C_num uniform m len (Z.to_nat d) (Z.to_nat D).
Proof.
  intros Hp Hs He. unfold prob_init. rewrite (proj2 (sizes_assert n d D) Hp). cbn [assert_ rbind]. rewrite init_core_shape.
  destruct (init_core_ok n d D c s (z_core r) (u_core r) Hs ltac:(apply Hp)) as (t & Et & Ht). rewrite Et. cbn [rbind].
  destruct (init_edge_ok (Z.to_nat D) c (z_edge r) (u_edge r)) as (g & Eg & Hg & _). rewrite Eg. cbn [rbind]. rewrite He. cbn [rbind].
  eexists. split; [reflexivity|]. cbn [pm_emb]. split; [reflexivity|]. split; [destruct ub; reflexivity|].
  destruct Hp as (Hn & Hd & HD).
  assert (Hbias : match init_bias (Z.to_nat D) ub c (u_bias r) with None => True | Some b => shp b = [Z.to_nat D; Z.to_nat D] end)
    by (unfold init_bias; destruct ub; [destruct c; reflexivity|exact Logic.I]).
  destruct n as [n|]; cbv zeta; cbn [core_shape app] in Ht.
  - split; [exact (f_equal (fun l => nth 1 l 0) Ht)|]. split; [exact (f_equal (fun l => nth 2 l 0) Ht)|].
    split; [intros k [= <-]; exact (f_equal (fun l => nth 0 l 0) Ht)|]. intros len ->.
    cbn [shapes_of]. unfold shapes_fixed. cbn [pm_core pm_edge pm_bias].
    repeat (split; [lia|]). split; [exact Ht|]. split; [exact Hg|exact Hbias].
  - split; [exact (f_equal (fun l => nth 0 l 0) Ht)|]. split; [exact (f_equal (fun l => nth 1 l 0) Ht)|].
    split; [discriminate|]. intros len _.
    cbn [shapes_of]. unfold shapes_unif. cbn [pm_core pm_edge pm_bias].
    repeat (split; [lia|]). split; [exact Ht|]. split; [exact Hg|exact Hbias].
Qed.
(** Sizes that are not positive and unknown initialisation methods raise AssertionError. *)
Theorem C63_rejected n d D c ub s a dom r :
  ~ positive_sizes n d D \/ ~ known_method s -> prob_init n d D c ub s a dom r = Err AssertionError.
Proof.
  intros H. unfold prob_init.
  destruct (match n with Some n => (0 <? n)%Z | None => true end && (0 <? d)%Z && (0 <? D)%Z) eqn:E; [|reflexivity].
  cbn [assert_ rbind]. destruct H as [H|H]; [exfalso; apply H, sizes_assert, E|].
  unfold init_core. destruct (String.eqb_spec s "near_eye") as [->|H1]; [exfalso; apply H; left; reflexivity|].
  destruct (String.eqb_spec s "normal") as [->|H2]; [exfalso; apply H; right; reflexivity|]. reflexivity.
Qed.
(** An embedding function without a domain, and an embedding (function or object) whose dimension
    is known and is not input_dim, are rejected. *)
Theorem C63_embedding_checked n d D c ub s a dom r m :
  prob_init n d D c ub s a dom r = Ok m ->
  match a with
  | ENone _ => pm_emb C_num m = None
  | EObj _ e => pm_emb C_num m = Some e /\ (forall k, es_dim C_num e = Some k -> k = Z.to_nat d)
  | EFun _ f => exists dm e, dom = Some dm /\ fixed_embedding C_num f dm = Ok e /\ pm_emb C_num m = Some e /\ es_dim C_num e = Some (Z.to_nat d)
  end.
Proof.
  intros H. unfold prob_init in H. apply rbind_inv in H as (u0 & _ & H). apply rbind_inv in H as (core & _ & H).
  apply rbind_inv in H as (edge & _ & H). apply rbind_inv in H as (e & He & H). injection H as <-. cbn [pm_emb].
  destruct a as [|e'|f]; cbn [setup_embedding] in He.
  - injection He as <-. reflexivity.
  - apply rbind_inv in He as (u1 & Ha & He). injection He as <-. split; [reflexivity|]. intros k Hk. rewrite Hk in Ha.
    apply assert_inv in Ha. apply Nat.eqb_eq in Ha. exact Ha.
  - apply rbind_inv in He as (dm & Hd & He). destruct dom as [dm'|]; [|discriminate]. injection Hd as ->.
    apply rbind_inv in He as (e' & Hf & He). apply rbind_inv in He as (u1 & Ha & He). injection He as <-.
    exists dm, e'. split; [reflexivity|]. split; [exact Hf|]. split; [reflexivity|].
    apply assert_inv in Ha. destruct (es_dim C_num e') as [k|]; [|discriminate]. apply Nat.eqb_eq in Ha. congruence.
Qed.
(** False for ProbUnifMPS: the inherited attribute seq_len reports input_dim. *)
Theorem C63_unif_seq_len_refuted d D c ub s a dom r m :
  prob_init None d D c ub s a dom r = Ok m -> attr_seq_len C_num m = Z.to_nat d.
Proof.
  intros H. assert (Hp : positive_sizes None d D).
  { apply sizes_assert. unfold prob_init in H. apply rbind_inv in H as (u0 & Ha & _). apply assert_inv in Ha. exact Ha. }
  unfold prob_init in H. rewrite (proj2 (sizes_assert None d D) Hp) in H. cbn [assert_ rbind] in H.
  apply rbind_inv in H as (core & Hc & H). apply rbind_inv in H as (edge & _ & H). apply rbind_inv in H as (e & _ & H). injection H as <-.
  assert (Hs : known_method s).
  { unfold init_core in Hc. apply rbind_inv in Hc as (u1 & Ha & _). apply assert_inv in Ha. apply orb_true_iff in Ha as [Ha|Ha];
      apply String.eqb_eq in Ha; [left|right]; exact Ha. }
  destruct (init_core_ok None d D c s (z_core r) (u_core r) Hs ltac:(apply Hp)) as (t & Et & Ht). cbn [core_shape app] in Et, Ht.
  rewrite Et in Hc. injection Hc as <-. exact (f_equal (fun l => nth 0 l 0) Ht).
Qed.

(** ** C64: the boundary vectors *)
(** what the constructor stores *)
Lemma init_parts n d D c ub s a dom r m : prob_init n d D c ub s a dom r = Ok m ->
  positive_sizes n d D /\ known_method s /\
  init_core s (core_shape n d D) c (z_core r) (u_core r) = Ok (pm_core C_num m) /\
  init_edge (Z.to_nat D) c (z_edge r) (u_edge r) = Ok (pm_edge C_num m) /\
  pm_bias C_num m = init_bias (Z.to_nat D) ub c (u_bias r) /\ setup_embedding C_num (Z.to_nat d) a dom = Ok (pm_emb C_num m).
Proof.
  intros H. unfold prob_init in H. apply rbind_inv in H as (u0 & Ha & H). apply assert_inv in Ha. apply sizes_assert in Ha.
  rewrite init_core_shape in H. apply rbind_inv in H as (core & Hc & H).
  apply rbind_inv in H as (edge & He & H). apply rbind_inv in H as (e & Hs & H). injection H as <-. cbn [pm_core pm_edge pm_bias pm_emb].
  split; [exact Ha|]. split; [|auto].
  unfold init_core in Hc. apply rbind_inv in Hc as (u1 & Hm & _). apply assert_inv in Hm. apply orb_true_iff in Hm as [Hm|Hm];
    apply String.eqb_eq in Hm; [left|right]; exact Hm.
Qed.
(** Real parameters: left and right are the same vector z / sqrt bond_dim; their overlap is
    sum z_i^2 / bond_dim, positive unless z = 0. *)
Theorem C64_real_edges_partial n d D ub s a dom r m :
  prob_init n d D false ub s a dom r = Ok m ->
  (forall i, i < Z.to_nat D -> get (pm_edge C_num m) [0; i] = c_ofR (get (z_edge r) [i] / sqrt (IZR D)) /\
                               get (pm_edge C_num m) [1; i] = get (pm_edge C_num m) [0; i]) /\
  bsum (S := C_num) (Z.to_nat D) (fun i => smul (edge_at (pm_edge C_num m) 0 i) (edge_at (pm_edge C_num m) 1 i)) =
    c_ofR (bsum (S := R_ops) (Z.to_nat D) (fun i => (get (z_edge r) [i] * get (z_edge r) [i])%R) / IZR D).
Proof.
  intros H. apply init_parts in H as ((_ & _ & HD) & _ & _ & He & _).
  destruct (init_edge_ok (Z.to_nat D) false (z_edge r) (u_edge r)) as (e & Ee & _ & Hg). rewrite Ee in He. injection He as He.
  rewrite <- He. assert (HI : INR (Z.to_nat D) = IZR D) by (rewrite INR_IZR_INZ, Z2Nat.id by lia; reflexivity). rewrite HI in Hg.
  assert (HDp : (0 < IZR D)%R) by (apply IZR_lt; exact HD).
  split; [intros i Hi; rewrite !Hg by lia; split; reflexivity|].
  transitivity (bsum (S := C_num) (Z.to_nat D) (fun i => nofR C_num (get (z_edge r) [i] * get (z_edge r) [i] * / IZR D))).
  - apply bsum_ext. intros i Hi. unfold edge_at.
    refine (eq_trans (f_equal2 c_mul (Hg 0 i ltac:(lia) Hi) (Hg 1 i ltac:(lia) Hi)) _).
    unfold c_mul, c_ofR. cbn [fst snd]. change (nofR C_num) with c_ofR. unfold c_ofR. f_equal; [|ring].
    rewrite Rmult_0_l, Rminus_0_r.
    transitivity (get (z_edge r) [i] * get (z_edge r) [i] * (/ sqrt (IZR D) * / sqrt (IZR D)))%R; [unfold Rdiv; ring|].
    f_equal. rewrite <- Rinv_mult. f_equal. apply sqrt_sqrt. lra.
  - refine (eq_trans (eq_sym (nofR_sum C_num _ _)) _). change (nofR C_num) with c_ofR. f_equal.
    unfold Rdiv. exact (bsum_mul_r R_cring (Z.to_nat D) (/ IZR D)%R _).
Qed.

Section Eye.
  Variable K : numfield.
  Add Ring KrEye : (rth K).
  (** a model whose letter matrices are all the identity: every amplitude is the overlap of the
      boundary vectors *)
  Definition eye_cores (uniform : bool) (n d D : nat) (m : pmps K) : Prop :=
    (forall t k i j, t < n -> k < d -> i < D -> j < D -> entry (pm_core K m) uniform t k i j = delta i j) /\
    (forall i j, i < D -> j < D -> bias_at (pm_bias K m) i j = s0).
  Lemma eye_psi uniform m n d D ix batch b : eye_cores uniform n d D m -> wf_input (K := K) (TLong ix) batch n d -> b < batch ->
    psi K uniform m n d D (TLong ix) b = bsum D (fun i => smul (edge_at (pm_edge K m) 0 i) (edge_at (pm_edge K m) 1 i)).
  Proof.
    intros [Hc Hb] [_ Hx] Hbb. unfold psi. rewrite row_amp_chain, lprod_sandwich. apply bsum_ext. intros j Hj. f_equal.
    assert (G : forall t, t <= n -> forall j, j < D -> lprod K D t (edge_at (pm_edge K m) 0) (row_site K (pm_core K m) (pm_bias K m) uniform d (TLong ix) b) j = edge_at (pm_edge K m) 0 j).
    { clear j Hj. induction t as [|t IH]; intros Ht j Hj; [apply lprod_0; exact Hj|]. rewrite lprod_S by exact Hj.
      rewrite <- (bsum_delta_r K D j (fun k => edge_at (pm_edge K m) 0 k) Hj). apply bsum_ext. intros k Hk.
      rewrite IH by lia. f_equal. unfold row_site. rewrite Hb by assumption. specialize (Hx b t Hbb ltac:(lia)).
      change (sadd (entry (pm_core K m) uniform t (Z.to_nat (get ix [b; t])) k j) s0 = delta k j). rewrite Hc by lia. ring. }
    apply G; [lia|exact Hj].
  Qed.
  Lemma words_length d n : List.length (words d n) = d ^ n.
  Proof.
    induction n as [|n IH]; [reflexivity|]. cbn [words]. rewrite Nat.pow_succ_r', <- IH. clear IH.
    generalize (words d n) as l. intros l. rewrite <- (seq_length d 0) at 2. generalize (seq 0 d) as q.
    induction q as [|i q IHq]; [reflexivity|]. cbn [flat_map List.length]. rewrite app_length, map_length, IHq. lia.
  Qed.
  Lemma eye_Z uniform m n d D : eye_cores uniform n d D m ->
    Zfun K uniform m n d D = (INR (d ^ n) * abs2 (bsum D (fun i => smul (edge_at (pm_edge K m) 0 i) (edge_at (pm_edge K m) 1 i))))%R.
  Proof.
    intros H. unfold Zfun, partition_fn. set (c := abs2 (bsum D _)). rewrite <- words_length.
    transitivity (lsum (K := R_ops) (words d n) (fun _ => c)).
    - apply (lsum_ext R_cring). intros xs Hx.
      pose proof (eye_psi uniform m n d D (one_row n xs) 1 0 H (one_row_wf K n d xs Hx) ltac:(lia)) as E.
      unfold psi in E. cbn [row_amp] in E. rewrite (one_row_letters n d xs Hx) in E. unfold c. exact (f_equal abs2 E).
    - generalize (words d n) as l. induction l as [|y l IH]; [cbn; ring|]. cbn [List.length]. rewrite S_INR.
      change (c + lsum (K := R_ops) l (fun _ => c) = (INR (List.length l) + 1) * c)%R. rewrite IH. ring.
  Qed.
  Theorem eye_forward uniform m ix slim par batch n d D : shapes_of K uniform m n d D -> eye_cores uniform n d D m ->
    pm_emb K m = None -> 0 < n -> wf_input (K := K) (TLong ix) batch n d -> (slim = true -> pm_bias K m = None) ->
    bsum D (fun i => smul (edge_at (pm_edge K m) 0 i) (edge_at (pm_edge K m) 1 i)) <> s0 ->
    exists T, snd (fwd K uniform m (TLong ix) slim par) = Ok T /\ shp T = [batch] /\
      forall b, b < batch -> get T [b] = XFin (- (INR n * ln (INR d))).
  Proof.
    intros Hsh Heye He Hn Hx Hsl Hov. set (ov := bsum D _) in Hov.
    pose proof (abs2_pos K ov Hov) as Ha. destruct (shapes_get K _ _ _ _ _ Hsh) as (Hd & _).
    assert (Hdp : (0 < INR (d ^ n))%R) by (apply lt_0_INR; apply Nat.neq_0_lt_0; apply Nat.pow_nonzero; lia).
    destruct (forward_ok K uniform m (TLong ix) slim par batch n d D Hsh He Hx Hn Hsl) as [H _].
    destruct (snd (fwd K uniform m (TLong ix) slim par)) as [T|e].
    - destruct H as (_ & HT & H). exists T. split; [reflexivity|]. split; [exact HT|]. intros b Hb. specialize (H b Hb).
      change (is_log (get T [b]) (abs2 (psi K uniform m n d D (TLong ix) b) / Zfun K uniform m n d D)) in H.
      rewrite (eye_psi uniform m n d D ix batch b Heye Hx Hb), (eye_Z uniform m n d D Heye) in H. fold ov in H.
      replace (abs2 ov / (INR (d ^ n) * abs2 ov))%R with (/ INR (d ^ n))%R in H by (field; lra).
      apply is_log_pos in H; [|apply Rinv_neq_0_compat; lra]. rewrite H. f_equal. rewrite ln_Rinv by exact Hdp. f_equal.
      rewrite pow_INR. apply ln_pow. apply lt_0_INR. exact Hd.
    - exfalso. destruct H as [_ [H|(b & Hb & H)]].
      + change (Zfun K uniform m n d D = 0%R) in H. rewrite (eye_Z uniform m n d D Heye) in H. fold ov in H.
        apply Rmult_integral in H. lra.
      + change (psi K uniform m n d D (TLong ix) b = s0) in H. rewrite (eye_psi uniform m n d D ix batch b Heye Hx Hb) in H. exact (Hov H).
  Qed.
End Eye.

(** ** C65, C66 *)
Lemma init_bias_zero D ub c u i j : bias_at (K := C_num) (init_bias D ub c u) i j = c_ofR 0.
Proof.
  unfold init_bias, bias_at. destruct ub; [|reflexivity]. destruct c; [|reflexivity].
  cbn [phaseify get]. unfold c_mul, c_ofR. cbn [fst snd]. f_equal; ring.
Qed.
Lemma entry_zero_noise n d D c z u m : positive_sizes n d D -> (forall i, get z i = 0%R) ->
  init_core "near_eye" (core_shape n d D) c z u = Ok (pm_core C_num m) ->
  forall t k i j, match n with Some l => t < Z.to_nat l | None => True end -> k < Z.to_nat d -> i < Z.to_nat D -> j < Z.to_nat D ->
    entry (K := C_num) (pm_core C_num m) (match n with None => true | Some _ => false end) t k i j = delta (K := C_num) i j.
Proof.
  intros Hp Hz Hc t k i j Ht Hk Hi Hj. set (z' := mkT (core_shape n d D) (get z)).
  assert (E : init_core "near_eye" (core_shape n d D) c z u = near_eye_init (core_shape n d D) c (1 / 1000) z' u) by reflexivity.
  rewrite E in Hc. clear E. unfold core_shape in Hc.
  destruct (C28_near_eye_init (match n with Some n => [Z.to_nat n] | None => [] end) (Z.to_nat d) (Z.to_nat D) (Z.to_nat D) c (1 / 1000) z' u (or_introl eq_refl) eq_refl) as (g & Eg & _ & Hg).
  pose proof (eq_trans (eq_sym Eg) Hc) as E. injection E as E. rewrite <- E. clear E.
  assert (G : forall b w, c_add (if i =? j then c_ofR 1 else c_ofR 0) (c_mul (c_ofR (1 / 1000 / sqrt (INR (Z.to_nat D * Z.to_nat D)) * get z' b)) w) = delta (K := C_num) i j).
  { intros b w. cbn [z' get]. rewrite Hz, Rmult_0_r. unfold delta. change (@s0 C_num) with (c_ofR 0). change (@s1 C_num) with (c_ofR 1).
    destruct (i =? j); unfold c_add, c_mul, c_ofR; cbn [fst snd]; f_equal; ring. }
  destruct n as [l|]; unfold entry; cbn [app] in *.
  - destruct (Hg [t; k] i j) as (w & _ & _ & Hw); [|exact Hi|exact Hj|].
    + apply valid_2; split; assumption.
    + exact (eq_trans Hw (G _ w)).
  - destruct (Hg [k] i j) as (w & _ & _ & Hw); [|exact Hi|exact Hj|].
    + constructor; [exact Hk|constructor].
    + exact (eq_trans Hw (G _ w)).
Qed.
Lemma fresh_eye n d D c ub a dom r m len : prob_init n d D c ub "near_eye" a dom r = Ok m -> (forall i, get (z_core r) i = 0%R) ->
  match n with Some l => len = Z.to_nat l | None => True end ->
  eye_cores C_num (match n with None => true | Some _ => false end) len (Z.to_nat d) (Z.to_nat D) m.
Proof.
  intros H Hz Hl. apply init_parts in H as (Hp & _ & Hc & _ & Hb & _). split.
  - intros t k i j Ht. apply (entry_zero_noise n d D c (z_core r) (u_core r) m Hp Hz Hc). destruct n; [subst len; exact Ht|exact Logic.I].
  - intros i j _ _. rewrite Hb. apply init_bias_zero.
Qed.
Lemma fresh_shapes n d D c ub s dom r m len : prob_init n d D c ub s (ENone C_num) dom r = Ok m ->
  match n with Some l => len = Z.to_nat l | None => True end ->
  shapes_of C_num (match n with None => true | Some _ => false end) m len (Z.to_nat d) (Z.to_nat D) /\ pm_emb C_num m = None.
Proof.
  intros H Hl. destruct (init_parts _ _ _ _ _ _ _ _ _ _ H) as (Hp & Hs & _).
  destruct (C63_constructed n d D c ub s (ENone C_num) dom r None Hp Hs eq_refl) as (m' & E & He & _ & _ & _ & _ & Hsh).
  rewrite E in H. injection H as <-. split; [apply Hsh; exact Hl|exact He].
Qed.

(** C65: the bias of a fresh model has no effect: with the same random numbers, the model with
    and the model without bias return the same values, for every input and evaluation mode. *)
Theorem C65_fresh_bias_neutral n d D c s dom r m m0 (x : tin C_num) par slim0 par0 batch len :
  prob_init n d D c true s (ENone C_num) dom r = Ok m -> prob_init n d D c false s (ENone C_num) dom r = Ok m0 ->
  match n with Some l => len = Z.to_nat l | None => True end -> 0 < len -> wf_input x batch len (Z.to_nat d) ->
  let u := match n with None => true | Some _ => false end in
  (forall T T0, snd (fwd C_num u m x false par) = Ok T -> snd (fwd C_num u m0 x slim0 par0) = Ok T0 ->
     shp T = [batch] /\ shp T0 = [batch] /\ forall b, b < batch -> get T0 [b] = get T [b]) /\
  ((0 < Zfun C_num u m len (Z.to_nat d) (Z.to_nat D))%R -> (forall b, b < batch -> psi C_num u m len (Z.to_nat d) (Z.to_nat D) x b <> s0) ->
     exists T T0, snd (fwd C_num u m x false par) = Ok T /\ snd (fwd C_num u m0 x slim0 par0) = Ok T0).
Proof.
  intros Hm Hm0 Hl Hn Hx. cbv zeta.
  destruct (fresh_shapes _ _ _ _ _ _ _ _ _ len Hm Hl) as [Hsh He]. destruct (fresh_shapes _ _ _ _ _ _ _ _ _ len Hm0 Hl) as [Hsh0 He0].
  destruct (init_parts _ _ _ _ _ _ _ _ _ _ Hm) as (_ & _ & Hc & Hg & Hb & _).
  destruct (init_parts _ _ _ _ _ _ _ _ _ _ Hm0) as (_ & _ & Hc0 & Hg0 & Hb0 & _).
  rewrite Hc0 in Hc. injection Hc as Hc. rewrite Hg0 in Hg. injection Hg as Hg. cbn [init_bias] in Hb0.
  apply (same_forward C_num _ _ m m0 x false par slim0 par0 batch len (Z.to_nat d) (Z.to_nat D) (Z.to_nat D) (@s1 C_num)); try assumption.
  - discriminate.
  - intros _. exact Hb0.
  - apply one_nonzero.
  - intros x' batch' b Hx' Hbb. unfold psi. rewrite !row_amp_chain, Hc, Hg.
    refine (eq_trans _ (eq_sym (Rmul_1_l (rth C_num) _))). apply sandwich_ext; try reflexivity.
    apply fchain_ext. intros t i j Ht Hi Hj. unfold row_site. f_equal. rewrite Hb, Hb0. symmetry. apply init_bias_zero.
Qed.

Lemma sumsq_zero (f : nat -> R) k : forall i0, i0 < k -> bsum (S := R_ops) k (fun i => f i * f i)%R = 0%R -> (f i0 * f i0 = 0)%R.
Proof.
  assert (P : forall k', (0 <= bsum (S := R_ops) k' (fun i => f i * f i))%R).
  { induction k' as [|k' IHk]; [cbn; lra|]. cbn [bsum]. pose proof (Rle_0_sqr (f k')) as Q. unfold Rsqr in Q. cbn [sadd R_ops]. lra. }
  induction k as [|k IH]; [lia|]. intros i0 Hi E. cbn [bsum sadd R_ops] in E.
  pose proof (P k) as Pk. pose proof (Rle_0_sqr (f k)) as Q. unfold Rsqr in Q.
  assert (Ek : bsum (S := R_ops) k (fun i => f i * f i)%R = 0%R) by lra.
  destruct (Nat.eq_dec i0 k) as [->|Hne]; [lra|]. apply IH; [lia|exact Ek].
Qed.
(** C66: without noise the near_eye initialisation gives the uniform distribution: every sequence
    has log probability - n ln d, in every evaluation mode. *)
Theorem C66_near_eye_uniform n d D ub dom r m ix slim par batch len :
  prob_init n d D false ub "near_eye" (ENone C_num) dom r = Ok m ->
  (forall i, get (z_core r) i = 0%R) -> (exists i, i < Z.to_nat D /\ get (z_edge r) [i] <> 0%R) ->
  match n with Some l => len = Z.to_nat l | None => True end -> 0 < len ->
  wf_input (K := C_num) (TLong ix) batch len (Z.to_nat d) -> (slim = true -> ub = false) ->
  exists T, snd (fwd C_num (match n with None => true | Some _ => false end) m (TLong ix) slim par) = Ok T /\ shp T = [batch] /\
    forall b, b < batch -> get T [b] = XFin (- (INR len * ln (IZR d))).
Proof.
  intros Hm Hz (i0 & Hi0 & Hne) Hl Hn Hx Hsl. destruct (fresh_shapes _ _ _ _ _ _ _ _ _ len Hm Hl) as [Hsh He].
  destruct (init_parts _ _ _ _ _ _ _ _ _ _ Hm) as ((_ & Hd & HD) & _ & _ & _ & Hb & _).
  pose proof (fresh_eye _ _ _ _ _ _ _ _ _ len Hm Hz Hl) as Heye.
  destruct (C64_real_edges_partial _ _ _ _ _ _ _ _ _ Hm) as [_ Hov].
  destruct (eye_forward C_num _ m ix slim par batch len _ _ Hsh Heye He Hn Hx) as (T & ET & HT & Hv).
  - intros E. rewrite Hb, (Hsl E). reflexivity.
  - change (bsum (S := C_num) (Z.to_nat D) (fun i => smul (edge_at (pm_edge C_num m) 0 i) (edge_at (pm_edge C_num m) 1 i)) <> c_ofR 0).
    rewrite Hov. intros E. unfold c_ofR in E. injection E as E.
    assert (HDp : (0 < IZR D)%R) by (apply IZR_lt; exact HD).
    assert (E0 : bsum (S := R_ops) (Z.to_nat D) (fun i => get (z_edge r) [i] * get (z_edge r) [i])%R = 0%R).
    { apply (Rmult_eq_reg_r (/ IZR D)); [|apply Rinv_neq_0_compat; lra]. rewrite Rmult_0_l. exact E. }
    assert (E1 : (get (z_edge r) [i0] * get (z_edge r) [i0] = 0)%R).
    { exact (sumsq_zero (fun i => get (z_edge r) [i]) (Z.to_nat D) i0 Hi0 E0). }
    apply Rmult_integral in E1. tauto.
  - exists T. split; [exact ET|]. split; [exact HT|]. intros b Hbb. rewrite (Hv b Hbb).
    rewrite INR_IZR_INZ with (n := Z.to_nat d), Z2Nat.id by lia. reflexivity.
Qed.

(** C64 is false for complex parameters: the two boundary vectors get independent phases.  There
    are draws after which left <> right, their overlap is 0, and the fresh model rejects every
    batch: for every length, input dimension, with and without bias. *)
Definition opposite_draws : draws :=
  mkDraws (mkT [] (fun _ => 0%R)) (mkT [] (fun _ => 0%R)) (mkT [2] (fun _ => 1%R))
    (mkT [2; 2] (fun i => match i with [1; 1] => (1 / 2)%R | _ => 0%R end)) (mkT [] (fun _ => 0%R)).
Lemma phase_0 : phase 0 = c_ofR 1.
Proof. unfold phase, c_ofR. rewrite Rmult_0_r, cos_0, sin_0. reflexivity. Qed.
Lemma phase_half : phase (1 / 2) = c_ofR (-1).
Proof. unfold phase, c_ofR. replace (2 * PI * (1 / 2))%R with PI by lra. rewrite cos_PI, sin_PI. reflexivity. Qed.
Theorem C64_complex_edges_refuted (n d : Z) (ub : bool) dom :
  (0 < n)%Z -> (0 < d)%Z ->
  exists m, prob_init (Some n) d 2 true ub "near_eye" (ENone C_num) dom opposite_draws = Ok m /\
    get (pm_edge C_num m) [0; 1] <> get (pm_edge C_num m) [1; 1] /\
    forall ix batch, 0 < batch -> wf_input (K := C_num) (TLong ix) batch (Z.to_nat n) (Z.to_nat d) ->
      snd (forward_fixed C_num m (TLong ix) false false) = Err AssertionError.
Proof.
  intros Hn Hd.
  destruct (C63_constructed (Some n) d 2 true ub "near_eye" (ENone C_num) dom opposite_draws None) as (m & Hm & He & _ & _ & _ & _ & Hsh);
    [split; [exact Hn|split; [exact Hd|reflexivity]]|left; reflexivity|reflexivity|].
  exists m. split; [exact Hm|]. specialize (Hsh (Z.to_nat n) eq_refl). cbn [shapes_of] in Hsh.
  destruct (init_parts _ _ _ _ _ _ _ _ _ _ Hm) as (_ & _ & _ & Hg & _).
  destruct (init_edge_ok (Z.to_nat 2) true (z_edge opposite_draws) (u_edge opposite_draws)) as (g & Eg & _ & Hv).
  pose proof (eq_trans (eq_sym Eg) Hg) as E. injection E as E. change (Z.to_nat 2) with 2 in Hv.
  set (q := (1 / sqrt (INR 2))%R) in *.
  assert (Hq : (q * q = 1 / 2)%R).
  { unfold q. transitivity (/ sqrt (INR 2) * / sqrt (INR 2))%R; [unfold Rdiv; ring|]. rewrite <- Rinv_mult, sqrt_sqrt by (cbn; lra). cbn. lra. }
  assert (V00 : get g [0; 0] = c_ofR q).
  { rewrite Hv by lia. cbn [z_edge u_edge opposite_draws get]. rewrite phase_0. fold q. unfold c_mul, c_ofR; cbn [fst snd]; f_equal; ring. }
  assert (V01 : get g [0; 1] = c_ofR q).
  { rewrite Hv by lia. cbn [z_edge u_edge opposite_draws get]. rewrite phase_0. fold q. unfold c_mul, c_ofR; cbn [fst snd]; f_equal; ring. }
  assert (V10 : get g [1; 0] = c_ofR q).
  { rewrite Hv by lia. cbn [z_edge u_edge opposite_draws get]. rewrite phase_0. fold q. unfold c_mul, c_ofR; cbn [fst snd]; f_equal; ring. }
  assert (V11 : get g [1; 1] = c_ofR (- q)).
  { rewrite Hv by lia. cbn [z_edge u_edge opposite_draws get]. rewrite phase_half. fold q. unfold c_mul, c_ofR; cbn [fst snd]; f_equal; ring. }
  split.
  - rewrite <- E. intros F. pose proof (eq_trans (eq_sym V01) (eq_trans F V11)) as F'. unfold c_ofR in F'. injection F' as F'. nra.
  - intros ix batch Hb Hx.
    apply (C11_zero_amplitude_refuted C_num m ix batch (Z.to_nat n) (Z.to_nat d) 2 0 Hsh He Hx Hb).
    refine (eq_trans (eye_psi C_num false m (Z.to_nat n) (Z.to_nat d) 2 ix batch 0 _ Hx Hb) _).
    + exact (fresh_eye (Some n) d 2 true ub _ dom opposite_draws m (Z.to_nat n) Hm (fun _ => eq_refl) eq_refl).
    + rewrite <- E. unfold edge_at. cbn [bsum]. 
      refine (eq_trans (f_equal2 c_add (f_equal2 c_add eq_refl (f_equal2 c_mul V00 V10)) (f_equal2 c_mul V01 V11)) _).
      change (@s0 C_num) with (c_ofR 0). unfold c_add, c_mul, c_ofR. cbn [fst snd]. f_equal; nra.
Qed.

Section Examples.
  (** no core noise, boundary vectors (1, 1) / sqrt 2 *)
  Definition ex_draws : draws :=
    mkDraws (mkT [] (fun _ => 0%R)) (mkT [] (fun _ => 0%R)) (mkT [2] (fun _ => 1%R)) (mkT [] (fun _ => 0%R)) (mkT [] (fun _ => 0%R)).
  Definition ex_ix : tensor Z := mkT [2; 3] (fun i => Z.of_nat ((nth 0 i 0 + nth 1 i 0) mod 2)).
  Lemma ex_ix_wf : wf_input (K := C_num) (TLong ex_ix) 2 3 2.
  Proof.
    split; [reflexivity|]. intros b t _ _. cbn [ex_ix get nth]. pose proof (Nat.mod_upper_bound (b + t) 2 ltac:(lia)). lia.
  Qed.
  Example C63_hyps_met : positive_sizes (Some 3%Z) 2 2 /\ positive_sizes None 2 2 /\ known_method "normal" /\
    ~ positive_sizes (Some 0%Z) 2 2 /\ ~ positive_sizes None 2 0 /\ ~ known_method "random" /\
    (exists m, prob_init (Some 3%Z) 2 2 true true "normal" (ENone C_num) None ex_draws = Ok m) /\
    (exists m, prob_init None 5 2 true true "normal" (ENone C_num) None ex_draws = Ok m /\ attr_seq_len C_num m = 5).
  Proof.
    assert (A : forall n d D, (match n with Some n => (0 <? n)%Z | None => true end && (0 <? d)%Z && (0 <? D)%Z) = false -> ~ positive_sizes n d D).
    { intros n d D E H. apply sizes_assert in H. congruence. }
    split; [apply sizes_assert; reflexivity|]. split; [apply sizes_assert; reflexivity|]. split; [right; reflexivity|].
    split; [apply A; reflexivity|]. split; [apply A; reflexivity|].
    split; [intros [H|H]; discriminate|]. split.
    - destruct (C63_constructed (Some 3%Z) 2 2 true true "normal" (ENone C_num) None ex_draws None) as (m & H & _);
        [apply sizes_assert; reflexivity|right; reflexivity|reflexivity|]. eauto.
    - destruct (C63_constructed None 5 2 true true "normal" (ENone C_num) None ex_draws None) as (m & H & _);
        [apply sizes_assert; reflexivity|right; reflexivity|reflexivity|]. exists m. split; [exact H|].
      exact (C63_unif_seq_len_refuted _ _ _ _ _ _ _ _ _ H).
  Qed.
  (** a fresh model with bias, 3 letters out of 2: all rows have log probability -3 ln 2 *)
  Example C65_C66_hyps_met : exists m m0 T,
    prob_init (Some 3%Z) 2 2 false true "near_eye" (ENone C_num) None ex_draws = Ok m /\
    prob_init (Some 3%Z) 2 2 false false "near_eye" (ENone C_num) None ex_draws = Ok m0 /\
    snd (forward_fixed C_num m (TLong ex_ix) false true) = Ok T /\ get T [1] = XFin (- (3 * ln 2)).
  Proof.
    destruct (C63_constructed (Some 3%Z) 2 2 false true "near_eye" (ENone C_num) None ex_draws None) as (m & H & _);
      [apply sizes_assert; reflexivity|left; reflexivity|reflexivity|].
    destruct (C63_constructed (Some 3%Z) 2 2 false false "near_eye" (ENone C_num) None ex_draws None) as (m0 & H0 & _);
      [apply sizes_assert; reflexivity|left; reflexivity|reflexivity|].
    destruct (C66_near_eye_uniform (Some 3%Z) 2 2 true None ex_draws m ex_ix false true 2 3 H (fun _ => eq_refl)) as (T & ET & _ & HT).
    - exists 0. split; [cbn; lia|]. cbn [ex_draws z_edge get]. lra.
    - reflexivity.
    - lia.
    - exact ex_ix_wf.
    - discriminate.
    - exists m, m0, T. split; [exact H|]. split; [exact H0|]. split; [exact ET|]. rewrite HT by lia. do 2 f_equal. cbn [INR]. lra.
  Qed.
End Examples.

Print Assumptions C63_constructed.
Print Assumptions C63_rejected.
Print Assumptions C63_embedding_checked.
Print Assumptions C63_unif_seq_len_refuted.
Print Assumptions C64_real_edges_partial.
Print Assumptions C64_complex_edges_refuted.
Print Assumptions C65_fresh_bias_neutral.
Print Assumptions C66_near_eye_uniform.
