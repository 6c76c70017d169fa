(** * P_Emb2: refutations of C13, C16, C17, C18 and the life of an embedding (C22). *)
From Coq Require Import Ring_theory Ring Reals Lra Permutation.
From Verif Require Import Base Scalars Tensor Utils2 MpsBase Embeddings ProbMps Spec MatSpec ModelSpec EmbSpec
  LinAlg Utils2Proofs EinsumProofs MatseqProofs SlimProofs LogNorm ProbProofs EmbProofs P_Prob P_Emb.

(** ** Witness: the constant embedding x |-> (eps, ..., eps) in dimension d, on a
    one-site model whose core entries and edge vectors are 1 *)
Definition flat (d : nat) (eps : R) : efun R_num := fun x => mkT (tin_shp x ++ [d]) (fun _ => eps).
Definition one_model (d : nat) (bias : option (tensor R_num)) (e : option (embedding R_num)) : pmps R_num :=
  mkP R_num (tconst [1; d; 1; 1] 1%R) (tconst [2; 1] 1%R) bias e.
Definition one_row : tensor Z := mkT [1; 1] (fun _ => 0%Z).

Lemma flat_embeds d eps M : embeds_discrete (flat d eps) M d (fun _ _ => eps).
Proof. intros ix _. split; reflexivity. Qed.
Lemma flat_embeds_interval d eps a b : embeds_interval (flat d eps) a b d (fun _ _ => eps).
Proof. intros x _. split; reflexivity. Qed.
Lemma one_row_wf : wf_input (K := R_num) (TLong one_row) 1 1 1.
Proof. split; [reflexivity|]. intros b t _ _. cbn. lia. Qed.
Lemma one_row_all : Permutation (map (row_letters one_row 1) (seq 0 1)) (words 1 1).
Proof. cbn. apply Permutation_refl. Qed.
Lemma one_shapes d bias e : 0 < d -> (bias = None \/ exists b, bias = Some (tconst [1; 1] b)) ->
  shapes_of R_num false (one_model d bias e) 1 d 1.
Proof. intros Hd [->|[b ->]]; cbn; repeat split; lia. Qed.
Lemma flat_fixed d eps M mn : exists e, fixed_embedding R_num (flat d eps) (mkDom false (INR M) mn) = Ok e.
Proof.
  destruct (raw_lambda_discrete R_num (flat d eps) M d _ mn num_points_default (flat_embeds d eps M)) as (raw & Er & Hrs & _).
  unfold fixed_embedding. rewrite (make_lambda_ok R_num _ _ _ raw d Er Hrs). eexists; reflexivity.
Qed.

(** *** C13 refuted: one value, embedding vector (2), core = bias = edges = 1: the only
    sequence gets probability (2*1+1)^2 / (2*(1+1))^2 = 9/16 *)
Lemma flat1_lossless (eps : R) : lossless (K := R_num) 1 (gram_matrix (K := R_num) 1 (fun _ => 1%R) (fun _ _ => eps)).
Proof.
  right. split; [intros; lia|]. left. eexists. intros k Hk. assert (k = 0) by lia. subst. reflexivity.
Qed.
Theorem C13_bias_embedding_refuted :
  exists (m : pmps R_num) (e : embedding R_num) (T : tensor xreal),
    fixed_embedding R_num (flat 1 2) (mkDom false 1 None) = Ok e /\ pm_emb R_num m = Some e /\
    shapes_fixed R_num m 1 1 1 /\
    snd (forward_fixed R_num m (TLong one_row) false false) = Ok T /\
    Permutation (map (row_letters one_row 1) (seq 0 1)) (words 1 1) /\
    bsum (S := R_ops) 1 (fun b => prob_of (get T [b])) = (9 / 16)%R.
Proof.
  destruct (flat_fixed 1 2 1 None) as [e Hfe].
  set (m := one_model 1 (Some (tconst [1; 1] 1%R)) (Some e)).
  assert (Hsh : shapes_of R_num false m 1 1 1) by (apply one_shapes; [lia|right; eauto]).
  pose proof (discrete_values R_num false m e (flat 1 2) 1 1 (fun _ _ => 2%R) None one_row false false 1 1 1 Hsh eq_refl
    (or_introl Hfe) (flat_embeds 1 2 1) (flat1_lossless 2) one_row_wf ltac:(lia) ltac:(discriminate)) as H.
  cbv zeta in H.
  assert (HZ : emb_Z R_num m false 1 1 1 1 (fun _ => 1%R) (fun _ _ => 2%R) = 16%R).
  { unfold emb_Z, weighted_partition_fn, weight_of, amplitude, sandwich, norm_site, letter_site, entry, bias_at, edge_at, abs2.
    cbn -[Rabs]. unfold mmul. cbn -[Rabs]. 
    match goal with |- context [Rabs ?x] => replace x with 4%R by (cbn; lra) end. rewrite (Rabs_right 4) by lra. lra. }
  assert (Hpsi : emb_psi R_num false m 1 1 (fun _ _ => 2%R) (row_letters one_row 1 0) = 3%R).
  { unfold emb_psi, amplitude, sandwich, vec_site, entry, bias_at, edge_at. cbn. unfold mmul. cbn. lra. }
  cbn [fwd] in H. rewrite HZ in H.
  destruct (snd (forward_fixed R_num m (TLong one_row) false false)) as [T|er] eqn:E.
  2:{ exfalso. destruct H as [_ [H|(b & Hb & H)]]; [lra|]. assert (b = 0) by lia. subst b. rewrite Hpsi in H. cbn in H. lra. }
  exists m, e, T. change 1%R with (INR 1). split; [exact Hfe|]. split; [reflexivity|]. split; [exact Hsh|]. split; [exact E|].
  split; [apply one_row_all|].
  destruct H as (_ & _ & H). specialize (H 0 ltac:(lia)). rewrite Hpsi in H.
  cbn [bsum]. rewrite (is_log_prob _ _ H). unfold abs2. cbn -[Rabs]. rewrite (Rabs_right 3) by lra. lra.
Qed.

(** *** The tolerances: embedding (eps,eps) with eps^2 * (total weight) <= 1e-8 *)
Section Tiny.
  Variable a eps : R.
  Hypothesis Ha : (0 < a <= / 100000000)%R.
  Lemma tiny_simplify (raw : tensor R_num) : shp raw = [2; 2] ->
    (forall k k', k < 2 -> k' < 2 -> get raw [k; k'] = a) ->
    exists l, simplify_lamb R_num raw = l /\ shp l = [] /\ get l [] = Fin a.
  Proof.
    intros Hs Hg. exists (simplify_lamb R_num raw). split; [reflexivity|]. unfold simplify_lamb.
    assert (Hdg : shp (diag_of R_num raw) = [2]) by (unfold diag_of; cbn [shp]; rewrite Hs; reflexivity).
    assert (Hgd : forall k, k < 2 -> get (diag_of R_num raw) [k] = a) by (intros k Hk; cbn; apply Hg; exact Hk).
    assert (Hdm : shp (diag_mat R_num (diag_of R_num raw)) = [2; 2]) by (unfold diag_mat; cbn [shp]; rewrite Hdg; reflexivity).
    assert (E1 : allclose R_num (diag_mat R_num (diag_of R_num raw)) raw = true).
    { apply (allclose_same R_num _ _ [2; 2] Hdm Hs). intros i Hi.
      apply (valid_app2_inv []) in Hi as (b0 & p & q & -> & Hb0 & Hp & Hq). apply valid_nil in Hb0. subst b0. cbn [app].
      rewrite Hg by assumption. cbn [diag_mat get nth].
      destruct (Nat.eqb_spec p q) as [<-|]; [rewrite Hgd by exact Hp; apply within_refl|].
      unfold within_tol. cbn -[Rabs]. unfold Rminus. rewrite Rplus_0_l, Rabs_Ropp, Rabs_right by lra. lra. }
    rewrite E1.
    assert (Hmean : mean_of R_num (diag_of R_num raw) = Fin a).
    { unfold mean_of. rewrite Hdg. cbn [hd xdivr]. destruct (Req_EM_T (INR 2) 0) as [E|_]; [exfalso; cbn in E; lra|].
      f_equal. cbn [bsum]. rewrite !Hgd by lia. cbn. field. }
    rewrite Hmean.
    assert (E2 : allclose R_num (tconst [] a) (diag_of R_num raw) = true).
    { apply (allclose_scalar R_num a _ 2 Hdg). intros k Hk. rewrite Hgd by exact Hk. apply within_refl. }
    change (car R_num) with R in *. rewrite E2. split; reflexivity.
  Qed.
  (** every row gets probability (2 eps)^2 / (2 a) *)
  Lemma tiny_forward (e e' : embedding R_num) (x : tin R_num) (raw : tensor R_num) (batch : nat) :
    (0 < eps)%R -> emb_forward R_num e x = (e', Ok (flat 2 eps x)) -> es_lamb R_num e' = Some (simplify_lamb R_num raw) ->
    shp raw = [2; 2] -> (forall k k', k < 2 -> k' < 2 -> get raw [k; k'] = a) -> tin_shp x = [batch; 1] ->
    exists T, snd (forward_fixed R_num (one_model 2 None (Some e)) x false false) = Ok T /\ shp T = [batch] /\
      forall b, b < batch -> get T [b] = XFin (ln (2 * (eps * eps) / a)).
  Proof.
    intros Heps He Hl Hs Hg Hx. destruct (tiny_simplify raw Hs Hg) as (l & El & Hls & Hlg). rewrite El in Hl.
    set (m := one_model 2 None (Some e)).
    assert (Hsh : shapes_of R_num false m 1 2 1) by (apply one_shapes; [lia|left; reflexivity]).
    assert (Hlok : lamb_ok R_num (Some l) 2 (fun k k' => (a * delta (K := R_num) k k')%R)).
    { left. exists a. split; [exact Hls|]. split; [exact Hlg|]. reflexivity. }
    assert (Hlsum : lamb_sum R_num (fun k k' => (a * delta (K := R_num) k k')%R) 2 2 (fun _ => a) (delta (K := R_num))).
    { intros [|[|k]] [|[|k']] Hk Hk'; try lia; cbn; ring. }
    assert (Hfs : shp (flat 2 eps x) = [batch; 1; 2]) by (cbn [flat shp]; rewrite Hx; reflexivity).
    pose proof (forward_emb_ok R_num false m e e' x (flat 2 eps x) l _ false false batch 1 2 1 2 (fun _ => a) (delta (K := R_num))
      Hsh eq_refl He Hl Hlok Hlsum ltac:(intros; lra) ltac:(exists []; exact Hx) Hfs ltac:(lia) ltac:(discriminate)) as H.
    cbv zeta in H. cbn [fwd] in H.
    assert (HZ : emb_Z R_num m false 1 2 1 2 (fun _ => a) (delta (K := R_num)) = (2 * a)%R).
    { unfold emb_Z, weighted_partition_fn, weight_of, amplitude, sandwich, norm_site, letter_site, entry, bias_at, edge_at, abs2.
      cbn -[Rabs]. unfold mmul, delta. cbn -[Rabs].
      repeat match goal with |- context [Rabs ?x] => lazymatch x with 1%R => fail | _ => replace (Rabs x) with 1%R by (rewrite Rabs_right; lra) end end. rewrite ?Rabs_R1. cbn. lra. }
    assert (Hpsi : forall b, b < batch ->
       row_amp (pm_core R_num m) (pm_edge R_num m) (pm_bias R_num m) false 1 2 1 (TFloat (flat 2 eps x)) b = (2 * eps)%R).
    { intros b _. unfold row_amp, amplitude, sandwich, vec_site, entry, bias_at, edge_at. cbn. unfold mmul. cbn. lra. }
    rewrite HZ in H.
    destruct (snd (forward_fixed R_num m x false false)) as [T|er].
    2:{ exfalso. destruct H as [_ [H|(b & Hb & H)]]; [lra|]. rewrite Hpsi in H by exact Hb. cbn in H. lra. }
    exists T. split; [reflexivity|]. destruct H as (_ & HT & H). split; [exact HT|]. intros b Hb.
    specialize (H b Hb). rewrite Hpsi in H by exact Hb.
    assert (Hv : (abs2 (K := R_num) (2 * eps)%R / (2 * a) = 2 * (eps * eps) / a)%R).
    { unfold abs2. cbn -[Rabs]. rewrite (Rabs_right (2 * eps)) by lra. field. lra. }
    cbn in Hv. rewrite Hv in H. apply (is_log_pos _ _ H). intros E.
    assert (0 < 2 * (eps * eps) / a)%R; [|lra]. apply Rdiv_lt_0_compat; [|lra]. nra.
  Qed.
End Tiny.
Definition eps0 : R := / 100000.
Lemma eps0_pos : (0 < eps0)%R. Proof. unfold eps0. lra. Qed.
Lemma eps0_sq : (0 < eps0 * eps0 <= / 100000000)%R. Proof. unfold eps0. split; lra. Qed.

(** *** C16 refuted: one value embedded as (1e-5, 1e-5): its probability is 2 *)
Theorem C16_discrete_refuted :
  exists (m : pmps R_num) (e : embedding R_num) (T : tensor xreal),
    fixed_embedding R_num (flat 2 eps0) (mkDom false 1 None) = Ok e /\ pm_emb R_num m = Some e /\
    pm_bias R_num m = None /\ shapes_fixed R_num m 1 2 1 /\
    snd (forward_fixed R_num m (TLong one_row) false false) = Ok T /\
    Permutation (map (row_letters one_row 1) (seq 0 1)) (words 1 1) /\
    bsum (S := R_ops) 1 (fun b => prob_of (get T [b])) = 2%R.
Proof.
  destruct (raw_lambda_discrete R_num (flat 2 eps0) 1 2 _ None num_points_default (flat_embeds 2 eps0 1)) as (raw & Er & Hrs & Hrg).
  destruct (flat_fixed 2 eps0 1 None) as [e Hfe].
  destruct (emb_forward_ok R_num e (flat 2 eps0) _ (TLong one_row) raw 2 (or_introl Hfe) Er Hrs) as (e' & Ee & Hl & _).
  assert (Hg : forall k k', k < 2 -> k' < 2 -> get raw [k; k'] = (eps0 * eps0)%R).
  { intros k k' Hk Hk'. rewrite Hrg by assumption. unfold gram_matrix. cbn. lra. }
  destruct (tiny_forward (eps0 * eps0) eps0 eps0_sq e e' (TLong one_row) raw 1 eps0_pos Ee Hl Hrs Hg eq_refl) as (T & E & _ & H).
  exists (one_model 2 None (Some e)), e, T. change 1%R with (INR 1).
  split; [exact Hfe|]. split; [reflexivity|]. split; [reflexivity|].
  split; [apply (one_shapes 2 None (Some e)); [lia|left; reflexivity]|]. split; [exact E|]. split; [apply one_row_all|].
  cbn [bsum]. rewrite (H 0) by lia. cbn [prob_of]. pose proof eps0_sq.
  replace (2 * (eps0 * eps0) / (eps0 * eps0))%R with 2%R by (field; pose proof eps0_pos; lra).
  rewrite exp_ln by lra. cbn. lra.
Qed.
(** *** C18 refuted: the embedding (1,1) gives probability 1, its multiple by 1e-5 gives 2 *)
Theorem C18_rescaling_refuted :
  exists (e1 e2 : embedding R_num) (T1 T2 : tensor xreal),
    fixed_embedding R_num (flat 2 1) (mkDom false 1 None) = Ok e1 /\
    fixed_embedding R_num (flat 2 eps0) (mkDom false 1 None) = Ok e2 /\
    (forall x i, get (flat 2 eps0 x) i = (eps0 * get (flat 2 1 x) i)%R) /\
    snd (forward_fixed R_num (one_model 2 None (Some e1)) (TLong one_row) false false) = Ok T1 /\
    snd (forward_fixed R_num (one_model 2 None (Some e2)) (TLong one_row) false false) = Ok T2 /\
    prob_of (get T1 [0]) = 1%R /\ prob_of (get T2 [0]) = 2%R.
Proof.
  destruct C16_discrete_refuted as (m & e2 & T2 & Hf2 & He2 & Hb2 & _ & _ & _ & _).
  clear m T2 He2 Hb2.
  destruct (raw_lambda_discrete R_num (flat 2 eps0) 1 2 _ None num_points_default (flat_embeds 2 eps0 1)) as (raw & Er & Hrs & Hrg).
  change 1%R with (INR 1) in Hf2 at 1.
  destruct (emb_forward_ok R_num e2 (flat 2 eps0) _ (TLong one_row) raw 2 (or_introl Hf2) Er Hrs) as (e' & Ee & Hl & _).
  assert (Hg : forall k k', k < 2 -> k' < 2 -> get raw [k; k'] = (eps0 * eps0)%R).
  { intros k k' Hk Hk'. rewrite Hrg by assumption. unfold gram_matrix. cbn. lra. }
  destruct (tiny_forward (eps0 * eps0) eps0 eps0_sq e2 e' (TLong one_row) raw 1 eps0_pos Ee Hl Hrs Hg eq_refl) as (T2 & E2 & _ & H2).
  destruct (flat_fixed 2 1 1 None) as [e1 Hf1].
  set (m1 := one_model 2 None (Some e1)).
  assert (Hsh : shapes_of R_num false m1 1 2 1) by (apply one_shapes; [lia|left; reflexivity]).
  assert (Hll : lossless (K := R_num) 2 (gram_matrix (K := R_num) 1 (fun _ => 1%R) (fun _ _ => 1%R))).
  { left. exists 0, 1. split; [lia|]. split; [lia|]. split; [lia|]. unfold within_tol, gram_matrix. cbn -[Rabs].
    replace (0 + 1 * (1 * 1))%R with 1%R by lra. unfold Rminus. rewrite Rplus_0_l, Rabs_Ropp, Rabs_R1. lra. }
  pose proof (discrete_values R_num false m1 e1 (flat 2 1) 1 2 (fun _ _ => 1%R) None one_row false false 1 1 1 Hsh eq_refl
    (or_introl Hf1) (flat_embeds 2 1 1) Hll one_row_wf ltac:(lia) ltac:(discriminate)) as H.
  cbv zeta in H. cbn [fwd] in H.
  assert (HZ : emb_Z R_num m1 false 1 2 1 1 (fun _ => 1%R) (fun _ _ => 1%R) = 4%R).
  { unfold emb_Z, weighted_partition_fn, weight_of, amplitude, sandwich, norm_site, letter_site, entry, bias_at, edge_at, abs2.
    cbn -[Rabs]. unfold mmul. cbn -[Rabs].
    match goal with |- context [Rabs ?x] => replace x with 2%R by (cbn; lra) end. rewrite (Rabs_right 2) by lra. lra. }
  assert (Hpsi : emb_psi R_num false m1 2 1 (fun _ _ => 1%R) (row_letters one_row 1 0) = 2%R).
  { unfold emb_psi, amplitude, sandwich, vec_site, entry, bias_at, edge_at. cbn. unfold mmul. cbn. lra. }
  rewrite HZ in H.
  destruct (snd (forward_fixed R_num m1 (TLong one_row) false false)) as [T1|er] eqn:E1.
  2:{ exfalso. destruct H as [_ [H|(b & Hb & H)]]; [lra|]. assert (b = 0) by lia. subst b. rewrite Hpsi in H. cbn in H. lra. }
  exists e1, e2, T1, T2. change 1%R with (INR 1) at 2 3.
  split; [exact Hf1|]. split; [exact Hf2|]. split; [intros; cbn; lra|]. split; [exact E1|]. split; [exact E2|]. split.
  - destruct H as (_ & _ & H). specialize (H 0 ltac:(lia)). rewrite Hpsi in H. rewrite (is_log_prob _ _ H).
    unfold abs2. cbn -[Rabs]. rewrite (Rabs_right 2) by lra. lra.
  - rewrite (H2 0) by lia. cbn [prob_of]. pose proof eps0_sq.
    replace (2 * (eps0 * eps0) / (eps0 * eps0))%R with 2%R by (field; pose proof eps0_pos; lra).
    apply exp_ln. lra.
Qed.
(** *** C17 refuted: the density of the constant embedding (1e-5,1e-5) on [0,1] is 2
    everywhere, so its integral is 2 *)
Lemma trapezoid_const n c : 1 < n -> trapezoid n (grid 0 1 n) (fun _ => c) = c.
Proof.
  intros Hn. unfold trapezoid.
  assert (G : forall j, bsum (S := R_ops) j (fun k => ((grid 0 1 n (S k) - grid 0 1 n k) * (c + c) / 2)%R) =
     (INR j * (c / INR (n - 1)))%R).
  { induction j as [|j IH]; [cbn; lra|]. cbn [bsum]. rewrite IH. cbn [sadd R_ops]. unfold grid. rewrite !S_INR. cbv beta. lra. }
  rewrite G. field. apply not_0_INR. lia.
Qed.
Theorem C17_continuous_refuted :
  exists (m : pmps R_num) (e : embedding R_num),
    fixed_embedding R_num (flat 2 eps0) (mkDom true 1 (Some 0%R)) = Ok e /\ pm_emb R_num m = Some e /\
    pm_bias R_num m = None /\ shapes_fixed R_num m 1 2 1 /\
    (forall (x : tensor R) batch, shp x = [batch; 1] ->
      exists T, snd (forward_fixed R_num m (TFloat x) false false) = Ok T /\
        forall b, b < batch -> prob_of (get T [b]) = 2%R) /\
    iter_trapezoid 1 1000 (grid 0 1 1000) (fun _ => 2%R) <> 1%R.
Proof.
  assert (HN : 1 < num_points_default) by (apply Nat.ltb_lt; reflexivity).
  destruct (raw_lambda_interval R_num (flat 2 eps0) 0 1 2 _ num_points_default ltac:(lra) HN (flat_embeds_interval 2 eps0 0 1))
    as (raw & Er & Hrs & Hrg).
  pose proof (make_lambda_ok R_num _ _ _ raw 2 Er Hrs) as Hm.
  exists (one_model 2 None (Some (mkEmb R_num false (flat 2 eps0) (mkDom true 1 (Some 0%R)) (Some (simplify_lamb R_num raw)) (Some 2)))).
  eexists. split; [unfold fixed_embedding; rewrite Hm; reflexivity|]. split; [reflexivity|]. split; [reflexivity|].
  split; [match goal with |- shapes_fixed _ (one_model _ _ ?e) _ _ _ => apply (one_shapes 2 None e); [lia|left; reflexivity] end|]. split.
  - intros x batch Hx. 
    assert (Hg : forall k k', k < 2 -> k' < 2 -> get raw [k; k'] = (eps0 * eps0)%R).
    { intros k k' Hk Hk'. rewrite Hrg by assumption. unfold gram_matrix.
      transitivity (trapezoid num_points_default (grid 0 1 num_points_default) (fun _ => (eps0 * eps0)%R)).
      - rewrite trapezoid_weights. reflexivity.
      - apply trapezoid_const. exact HN. }
    match goal with |- context [one_model 2 None (Some ?e)] => set (e0 := e) end.
    destruct (tiny_forward (eps0 * eps0) eps0 eps0_sq e0 e0 (TFloat x) raw batch eps0_pos eq_refl eq_refl Hrs Hg Hx) as (T & E & _ & H).
    exists T. split; [exact E|]. intros b Hb. rewrite H by exact Hb. cbn [prob_of]. pose proof eps0_sq.
    replace (2 * (eps0 * eps0) / (eps0 * eps0))%R with 2%R by (field; pose proof eps0_pos; lra).
    apply exp_ln. lra.
  - change 1000 with num_points_default. cbn [iter_trapezoid]. rewrite trapezoid_const by exact HN. lra.
Qed.

(** ** C22: histories of calls on one model object *)
Section Life.
  Variable K : numfield.
  (** what can happen to a model object: a forward call, a log_norm call, an update of the
      MPS parameters, an update of the parameters of the embedding module (which changes
      the function it computes; the object's lamb_mat attribute is untouched) *)
  Inductive event :=
  | EvForward (x : tin K) (slim par : bool)
  | EvLogNorm
  | EvParams (core edge : tensor K) (bias : option (tensor K))
  | EvEmbedding (f : efun K).
  Definition after (uniform : bool) (m : pmps K) (ev : event) : pmps K :=
    match ev with
    | EvForward x slim par => fst (fwd K uniform m x slim par)
    | EvLogNorm => m
    | EvParams core edge bias => mkP K core edge bias (pm_emb K m)
    | EvEmbedding f => mkP K (pm_core K m) (pm_edge K m) (pm_bias K m)
        (option_map (fun e => mkEmb K (es_trainable K e) f (es_dom K e) (es_lamb K e) (es_dim K e)) (pm_emb K m))
    end.
  Definition history (uniform : bool) (m : pmps K) (h : list event) : pmps K := fold_left (after uniform) h m.
  Definition log_norm_of (uniform : bool) (m : pmps K) (n : nat) : res (tensor xreal) :=
    if uniform then log_norm_unif K m n else log_norm_fixed K m.
  Definition is_embedding_event (ev : event) : Prop := match ev with EvEmbedding _ => True | _ => False end.

  (** the embedding object's lambda matrix is the one of its current function *)
  Definition fresh (m : pmps K) (f : efun K) (dom : domain) (raw : tensor K) : Prop :=
    exists e, pm_emb K m = Some e /\ built K e f dom /\ es_fun K e = f /\ es_lamb K e = Some (simplify_lamb K raw).
  Lemma forward_fresh uniform m e f dom raw d x slim par :
    raw_lambda K num_points_default f dom = Ok raw -> shp raw = [d; d] ->
    pm_emb K m = Some e -> built K e f dom -> (uniform = true -> exists a b r, tin_shp x = a :: b :: r) ->
    fresh (fst (fwd K uniform m x slim par)) f dom raw.
  Proof.
    intros Er Hrs He Hb Hx. destruct (emb_forward_ok K e f dom x raw d Hb Er Hrs) as (e' & Ee & Hl & Hf & _ & Hb').
    assert (E : pm_emb K (fst (fwd K uniform m x slim par)) = Some e').
    { destruct uniform; cbn [fwd].
      - unfold forward_unif. destruct (Hx eq_refl) as (a & b & r & Hs). rewrite Hs. unfold embed. rewrite He, Ee. reflexivity.
      - unfold forward_fixed, embed. rewrite He, Ee. reflexivity. }
    exists e'. split; [exact E|]. split; [exact Hb'|]. split; [exact Hf|exact Hl].
  Qed.
  Lemma after_fresh uniform m f dom raw d ev :
    raw_lambda K num_points_default f dom = Ok raw -> shp raw = [d; d] ->
    ~ is_embedding_event ev -> fresh m f dom raw -> fresh (after uniform m ev) f dom raw.
  Proof.
    intros Er Hrs Hev (e & He & Hb & Hf & Hl). destruct ev as [x slim par| |core edge bias|g]; cbn [after].
    - destruct uniform.
      + destruct (tin_shp x) as [|a [|b r]] eqn:Ex.
        * exists e. cbn [fwd]. unfold forward_unif. rewrite Ex. auto.
        * exists e. cbn [fwd]. unfold forward_unif. rewrite Ex. auto.
        * apply (forward_fresh true m e f dom raw d); try assumption. intros _. eauto.
      + apply (forward_fresh false m e f dom raw d); try assumption. discriminate.
    - exists e. auto.
    - exists e. auto.
    - exfalso. apply Hev. exact I.
  Qed.
  Lemma history_fresh uniform m f dom raw d h :
    raw_lambda K num_points_default f dom = Ok raw -> shp raw = [d; d] ->
    (forall ev, In ev h -> ~ is_embedding_event ev) -> fresh m f dom raw -> fresh (history uniform m h) f dom raw.
  Proof.
    intros Er Hrs. revert m. induction h as [|ev h IH]; intros m Hh Hm; [exact Hm|].
    cbn [history fold_left]. apply IH; [intros e He; apply Hh; right; exact He|].
    apply (after_fresh uniform m f dom raw d); try assumption. apply Hh. left; reflexivity.
  Qed.
  Lemma fresh_log_norm (uniform : bool) m f M d phi mn raw n D :
    raw_lambda K num_points_default f (mkDom false (INR M) mn) = Ok raw -> shp raw = [d; d] ->
    (forall k k', k < d -> k' < d -> get raw [k; k'] = gram_matrix M (fun _ => 1%R) phi k k') ->
    lossless d (gram_matrix M (fun _ => 1%R) phi) ->
    fresh m f (mkDom false (INR M) mn) raw -> shapes_of K uniform m n d D ->
    norm_ok (log_norm_of uniform m n) (emb_Z K m uniform n d D M (fun _ => 1%R) phi).
  Proof.
    intros Er Hrs Hrg Hll (e & He & _ & _ & Hl) Hsh.
    destruct (shapes_get K uniform m n d D Hsh) as (Hd & HD & Hc & Hed & Hb).
    destruct (biased_core K m uniform n d D Hc Hb) as (c & Ec & Hcok).
    assert (Hnorm : forall len, len = Some (Z.of_nat n) \/ (len = None /\ uniform = false) ->
              norm_ok (get_log_norm K c (tfin K (pm_edge K m)) len (Some (simplify_lamb K raw))) (emb_Z K m uniform n d D M (fun _ => 1%R) phi)).
    { intros len Hlen.
      apply (get_log_norm_ok K c (tfin K (pm_edge K m)) len _ uniform n d D (gram_matrix M (fun _ => 1%R) phi) M (fun _ => 1%R) phi _
        (edge_at (pm_edge K m) 0) (edge_at (pm_edge K m) 1) (norm_site K d m uniform phi) Hd HD Hcok); try reflexivity; try assumption.
      - apply (simplify_lossless K raw d (gram_matrix M (fun _ => 1%R) phi) Hd Hrs Hrg Hll).
      - apply lamb_sum_gram.
      - intros; lra. }
    unfold log_norm_of. destruct uniform.
    - unfold log_norm_unif. rewrite Ec. cbn [rbind]. unfold lamb_of. rewrite He, Hl. cbn [rbind]. apply Hnorm. left; reflexivity.
    - unfold log_norm_fixed. rewrite Ec. cbn [rbind]. unfold lamb_of. rewrite He, Hl. cbn [rbind]. apply Hnorm. right; split; reflexivity.
  Qed.

  (** *** C22, what holds: after any history that ends with a forward call followed by any
      events other than updates of the embedding module (trainable embeddings), or after
      any history without such updates (fixed embeddings), log_norm is the log
      normalisation for the current embedding function and the current MPS parameters.
      Missing: histories in which no forward call follows the last update. *)
  Theorem C22_log_norm_current_partial (uniform : bool) (m0 : pmps K) (h : list event) (f : efun K) M d phi mn (n D : nat) :
    let m := history uniform m0 h in
    embeds_discrete f M d phi -> lossless d (gram_matrix M (fun _ => 1%R) phi) ->
    shapes_of K uniform m n d D ->
    (** fixed embedding, never updated *)
    ((exists e, pm_emb K m0 = Some e /\ fixed_embedding K f (mkDom false (INR M) mn) = Ok e) /\
      (forall ev, In ev h -> ~ is_embedding_event ev) \/
    (** trainable embedding: the history is h1, then a forward call when the embedding
        function is f, then h2 without embedding updates *)
     (exists h1 x slim par h2 e, h = h1 ++ EvForward x slim par :: h2 /\ List.length (tin_shp x) >= 2 /\
       (forall ev, In ev h2 -> ~ is_embedding_event ev) /\
       pm_emb K (history uniform m0 h1) = Some e /\ es_trainable K e = true /\
       es_fun K e = f /\ es_dom K e = mkDom false (INR M) mn)) ->
    let Zn := emb_Z K m uniform n d D M (fun _ => 1%R) phi in
    ((0 < Zn)%R -> exists L, log_norm_of uniform m n = Ok L /\ shp L = [] /\ get L [] = XFin (ln Zn)) /\
    (exists e, pm_emb K m = Some e /\ es_fun K e = f).
  Proof.
    intros m Hf Hll Hsh Hcase Zn.
    destruct (raw_lambda_discrete K f M d phi mn num_points_default Hf) as (raw & Er & Hrs & Hrg).
    assert (Hfr : fresh m f (mkDom false (INR M) mn) raw).
    { destruct Hcase as [[(e & He & Hfe) Hh]|(h1 & x & slim & par & h2 & e & -> & Hx & Hh & He & Ht & Hef & Hed)].
      - apply (history_fresh uniform m0 f _ raw d h Er Hrs Hh).
        exists e. split; [exact He|]. split; [left; exact Hfe|].
        unfold fixed_embedding in Hfe. rewrite (make_lambda_ok K _ _ _ raw d Er Hrs) in Hfe. cbn [rbind] in Hfe.
        injection Hfe as <-. split; reflexivity.
      - subst m. unfold history. rewrite fold_left_app. cbn [fold_left after].
        apply (history_fresh uniform _ f _ raw d h2 Er Hrs Hh).
        apply (forward_fresh uniform _ e f _ raw d); try assumption; [right; auto|].
        intros _. destruct (tin_shp x) as [|a [|b r]]; [cbn in Hx; lia|cbn in Hx; lia|eauto]. }
    split.
    - apply (fresh_log_norm uniform m f M d phi mn raw n D Er Hrs Hrg Hll Hfr Hsh).
    - destruct Hfr as (e & He & _ & Hfe & _). exists e. auto.
  Qed.
  (** *** C22 refuted (1): before the first forward call log_norm raises AttributeError, for
      every model with a trainable embedding *)
  Theorem C22_before_forward_refuted (uniform : bool) (m : pmps K) f dom (n d D : nat) :
    shapes_of K uniform m n d D -> pm_emb K m = Some (trainable_embedding K f dom) ->
    log_norm_of uniform m n = Err AttributeError.
  Proof.
    intros Hsh He. destruct (shapes_get K uniform m n d D Hsh) as (Hd & HD & Hc & Hed & Hb).
    destruct (biased_core K m uniform n d D Hc Hb) as (c & Ec & _).
    unfold log_norm_of. destruct uniform; [unfold log_norm_unif|unfold log_norm_fixed]; rewrite Ec; cbn [rbind];
      unfold lamb_of; rewrite He; reflexivity.
  Qed.
End Life.
(** *** C22 refuted (2): a forward call, an update of the embedding module, then log_norm:
    the value is the one of the old embedding (ln 1), not of the current one (ln 4) *)
Theorem C22_stale_refuted :
  let dom := mkDom false 1 None in
  let m0 := one_model 1 None (Some (trainable_embedding R_num (flat 1 1) dom)) in
  let m := history R_num false m0 [EvForward R_num (TLong one_row) false false; EvEmbedding R_num (flat 1 2)] in
  (exists e, pm_emb R_num m = Some e /\ es_fun R_num e = flat 1 2) /\
  (exists L, log_norm_of R_num false m 1 = Ok L /\ get L [] = XFin (ln 1)) /\
  emb_Z R_num m false 1 1 1 1 (fun _ => 1%R) (fun _ _ => 1%R) = 1%R /\
  emb_Z R_num m false 1 1 1 1 (fun _ => 1%R) (fun _ _ => 2%R) = 4%R.
Proof.
  intros dom m0 m.
  destruct (raw_lambda_discrete R_num (flat 1 1) 1 1 _ None num_points_default (flat_embeds 1 1 1)) as (raw & Er & Hrs & Hrg).
  change 1%R with (INR 1) in dom.
  destruct (emb_forward_ok R_num (trainable_embedding R_num (flat 1 1) dom) (flat 1 1) dom (TLong one_row) raw 1
     ltac:(right; auto) Er Hrs) as (e' & Ee & Hl & Hfe & Hde & Hb').
  set (m1 := fst (forward_fixed R_num m0 (TLong one_row) false false)).
  assert (Em1 : m1 = with_emb R_num m0 e').
  { unfold m1, forward_fixed, embed. cbn [m0 one_model pm_emb]. rewrite Ee. reflexivity. }
  assert (Em : m = after R_num false m1 (EvEmbedding R_num (flat 1 2))) by reflexivity.
  assert (HZ1 : forall e, emb_Z R_num (one_model 1 None e) false 1 1 1 1 (fun _ => 1%R) (fun _ _ => 1%R) = 1%R).
  { intros e. unfold emb_Z, weighted_partition_fn, weight_of, amplitude, sandwich, norm_site, letter_site, entry, bias_at, edge_at, abs2.
    cbn -[Rabs]. unfold mmul. cbn -[Rabs].
    match goal with |- context [Rabs ?x] => replace (Rabs x) with 1%R by (rewrite Rabs_right; lra) end. lra. }
  assert (HZ2 : forall e, emb_Z R_num (one_model 1 None e) false 1 1 1 1 (fun _ => 1%R) (fun _ _ => 2%R) = 4%R).
  { intros e. unfold emb_Z, weighted_partition_fn, weight_of, amplitude, sandwich, norm_site, letter_site, entry, bias_at, edge_at, abs2.
    cbn -[Rabs]. unfold mmul. cbn -[Rabs].
    match goal with |- context [Rabs ?x] => replace (Rabs x) with 2%R by (rewrite Rabs_right; lra) end. lra. }
  split; [|split; [|split]].
  - rewrite Em, Em1. eexists. split; reflexivity.
  - pose proof (fresh_log_norm R_num false m1 (flat 1 1) 1 1 (fun _ _ => 1%R) None raw 1 1 Er Hrs Hrg (flat1_lossless 1)) as H.
    assert (Hfr : fresh R_num m1 (flat 1 1) dom raw) by (exists e'; rewrite Em1; auto).
    assert (Hsh : shapes_of R_num false m1 1 1 1) by (rewrite Em1; apply one_shapes; [lia|left; reflexivity]).
    specialize (H Hfr Hsh). rewrite Em1 in H. cbn [with_emb m0 one_model] in H.
    change (emb_Z R_num (with_emb R_num m0 e')) with (emb_Z R_num (one_model 1 None (Some e'))) in H. rewrite HZ1 in H.
    destruct H as [H _]. destruct (H ltac:(lra)) as (L & EL & _ & Hg). exists L. split; [|exact Hg].
    rewrite <- EL. rewrite Em, Em1. unfold log_norm_of, log_norm_fixed, lamb_of. cbn [after with_emb pm_emb option_map pm_core pm_edge pm_bias es_lamb].
    reflexivity.
  - rewrite Em, Em1. apply HZ1.
  - rewrite Em, Em1. apply HZ2.
Qed.

(** *** Non-vacuity *)
(** a lossless embedding of three values in dimension 2, applied by a biased-free model *)
Definition emb3 (q k : nat) : R_num := if k =? 0 then 1%R else INR q.
Definition emb3_fun : efun R_num := fun x =>
  match x with
  | TLong ix => mkT (shp ix ++ [2]) (fun i => emb3 (Z.to_nat (get ix (droplast 1 i))) (last i 0))
  | TFloat v => tconst [] 0%R
  end.
Lemma emb3_embeds : embeds_discrete emb3_fun 3 2 emb3.
Proof.
  intros ix _. split; [reflexivity|]. intros i k _ _. cbn [emb3_fun get].
  rewrite (droplast_app i [k] 1 eq_refl), last_last. reflexivity.
Qed.
Example C16_hyps_met :
  lossless (K := R_num) 2 (gram_matrix 3 (fun _ => 1%R) emb3) /\
  exists e, fixed_embedding R_num emb3_fun (mkDom false (INR 3) None) = Ok e.
Proof.
  split.
  - left. exists 0, 1. split; [lia|]. split; [lia|]. split; [lia|]. unfold within_tol, gram_matrix, emb3. cbn -[Rabs].
    match goal with |- context [Rabs ?x] => replace (Rabs x) with 3%R end.
    2:{ symmetry. match goal with |- Rabs ?x = _ => replace x with (-(3))%R by lra end. rewrite Rabs_Ropp. apply Rabs_right; lra. }
    match goal with |- context [Rabs ?x] => replace (Rabs x) with 3%R end.
    2:{ symmetry. match goal with |- Rabs ?x = _ => replace x with (3)%R by lra end. apply Rabs_right; lra. }
    lra.
  - destruct (raw_lambda_discrete R_num emb3_fun 3 2 emb3 None num_points_default emb3_embeds) as (raw & Er & Hrs & _).
    unfold fixed_embedding. rewrite (make_lambda_ok R_num _ _ _ raw 2 Er Hrs). eexists; reflexivity.
Qed.
(** component sums 1 (C13): the embedding q |-> (q, 1 - q) *)
Example C13_hyps_met : forall q, q < 3 -> bsum (S := R_num) 2 (fun k => if k =? 0 then INR q else (1 - INR q)%R) = 1%R.
Proof. intros q _. cbn. lra. Qed.
(** a trainable history (C22): forward, log_norm *)
Example C22_hyps_met :
  let m0 := one_model 2 None (Some (trainable_embedding R_num emb3_fun (mkDom false (INR 3) None))) in
  exists h1 x slim par h2 e, [EvForward R_num (TLong one_row) false false; EvLogNorm R_num] = h1 ++ EvForward R_num x slim par :: h2 /\
    List.length (tin_shp x) >= 2 /\ (forall ev, In ev h2 -> ~ is_embedding_event R_num ev) /\
    pm_emb R_num (history R_num false m0 h1) = Some e /\ es_trainable R_num e = true.
Proof.
  exists [], (TLong one_row), false, false, [EvLogNorm R_num]. eexists. split; [reflexivity|]. split; [cbn; lia|].
  split; [intros ev [<-|[]]; exact (fun x => x)|]. split; reflexivity.
Qed.
Print Assumptions C16_discrete_normalised_partial.
Print Assumptions C17_continuous_normalised_partial.
Print Assumptions C18_rescaling_partial.
Print Assumptions C19_same_log_probs.
Print Assumptions C13_bias_embedding_refuted.
Print Assumptions C22_log_norm_current_partial.
Print Assumptions C22_stale_refuted.
