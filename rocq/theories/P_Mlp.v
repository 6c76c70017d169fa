(** * P_Mlp: C102, the multilayer perceptron embedding of init_mlp_embed. *)
From Coq Require Import Reals Lra.
From Verif Require Import Base Scalars Tensor Utils2 MpsBase Embeddings ProbMps Spec MatSpec ModelSpec EmbSpec LinAlg ProbProofs EmbProofs LogNorm P_Prob P_Emb P_Emb3 Mlp.

(** ** Specification: layer t maps h_0 .. h_(dims t - 1) to s(sum_i W t o i h_i + B t o), s(z) = 1 / (1 + e^(-z)); layer 0 acts
    on the number x *)
Fixpoint activation (dims : nat -> nat) (W : nat -> nat -> nat -> R) (B : nat -> nat -> R) (x : R) (t : nat) (o : nat) : R :=
  match t with
  | 0 => x
  | S t => (1 / (1 + exp (- (bsum (S := R_ops) (dims t) (fun i => W t o i * activation dims W B x t i) + B t o))))%R
  end.
(** the sizes of the layers: 1, hidden_dims, output_dim *)
Definition layer_sizes (output_dim num_layers : Z) (h : hidden) (t : nat) : nat := Z.to_nat (nth t ([1%Z] ++ hidden_of num_layers h ++ [output_dim]) 0%Z).
(** module 2t holds the weights of layer t *)
Definition weights_fit (L : nat) (dims : nat -> nat) (w : nat -> tensor R * tensor R) : Prop :=
  forall t, t < L -> shp (fst (w (2 * t))) = [dims (S t); dims t] /\ shp (snd (w (2 * t))) = [dims (S t)].
Definition weight_at (w : nat -> tensor R * tensor R) (t o i : nat) : R := get (fst (w (2 * t))) [o; i].
Definition bias_of (w : nat -> tensor R * tensor R) (t o : nat) : R := get (snd (w (2 * t))) [o].

Lemma rdiv1 z : (1 / z = / z)%R.
Proof. unfold Rdiv. apply Rmult_1_l. Qed.
Lemma seq_ok (dims : nat -> Z) (w : nat -> tensor R * tensor R) (x : tensor R) L s (y : tensor R) :
  (forall t, t < L -> shp (fst (w (2 * (s + t)))) = [Z.to_nat (dims (S (s + t))); Z.to_nat (dims (s + t))] /\ shp (snd (w (2 * (s + t)))) = [Z.to_nat (dims (S (s + t)))]) ->
  shp y = shp x ++ [Z.to_nat (dims s)] ->
  (forall i k, valid (shp x) i -> k < Z.to_nat (dims s) -> get y (i ++ [k]) = activation (fun t => Z.to_nat (dims t)) (weight_at w) (bias_of w) (get x i) s k) ->
  exists z, seq_forward (flat_map (fun i => [Linear (dims i) (dims (S i)); Sigmoid]) (seq s L)) w (2 * s) (TFloat y) = Ok (TFloat z) /\
    shp z = shp x ++ [Z.to_nat (dims (s + L))] /\
    forall i k, valid (shp x) i -> k < Z.to_nat (dims (s + L)) -> get z (i ++ [k]) = activation (fun t => Z.to_nat (dims t)) (weight_at w) (bias_of w) (get x i) (s + L) k.
Proof.
  revert s y. induction L as [|L IH]; intros s y Hw Hy Gy.
  - exists y. rewrite Nat.add_0_r. split; [reflexivity|]. split; assumption.
  - cbn [seq flat_map app seq_forward]. destruct (Hw 0 ltac:(lia)) as [W1 W2]. rewrite Nat.add_0_r in W1, W2.
    unfold linear_forward. rewrite W1, Hy, last_last, Nat.eqb_refl. unfold ndim. rewrite Hy, app_length. cbn [List.length].
    replace (0 <? List.length (shp x) + 1) with true by (symmetry; apply Nat.ltb_lt; lia). cbn [andb rbind sigmoid_forward].
    rewrite (droplast_app (shp x) [Z.to_nat (dims s)] 1 eq_refl). change (S (2 * s)) with (1 + 2 * s). replace (S (1 + 2 * s)) with (2 * S s) by lia.
    replace (s + S L) with (S s + L) by lia.
    apply (IH (S s)).
    + intros t Ht. replace (S s + t) with (s + S t) by lia. apply Hw. lia.
    + reflexivity.
    + intros i k Hi Hk. cbn [tmap get]. rewrite last_last, (droplast_app i [k] 1 eq_refl). cbn [activation]. unfold sigmoid. rewrite rdiv1. f_equal. f_equal. f_equal. f_equal.
      f_equal. apply (bsum_ext (S := R_ops)). intros j Hj. rewrite (Gy i j Hi Hj). unfold weight_at. apply Rmult_comm.
Qed.

Section Mlp.
  Variables (output_dim num_layers : Z) (h : hidden).
  Notation L := (Z.to_nat num_layers).
  Notation dims := (layer_sizes output_dim num_layers h).
  Hypotheses (HL : (1 <= num_layers)%Z) (Hh : Z.of_nat (List.length (hidden_of num_layers h)) = (num_layers - 1)%Z).
  Lemma mlp_layers : exists ls, init_mlp_layers output_dim num_layers h = Ok ls /\
    ls = flat_map (fun i => [Linear (nth i ([1%Z] ++ hidden_of num_layers h ++ [output_dim]) 0%Z) (nth (S i) ([1%Z] ++ hidden_of num_layers h ++ [output_dim]) 0%Z); Sigmoid]) (seq 0 L).
  Proof. unfold init_mlp_layers. fold (hidden_of num_layers h). rewrite Hh, Z.eqb_refl. cbn [assert_ rbind]. eexists. split; reflexivity. Qed.
  Lemma dims_L : dims L = Z.to_nat output_dim.
  Proof. unfold layer_sizes. rewrite app_nth2 by (cbn; lia). rewrite app_nth2 by (cbn; lia). replace (L - List.length [1%Z] - List.length (hidden_of num_layers h)) with 0 by (cbn; lia). reflexivity. Qed.

  (** C102: for every architecture that init_mlp_embed accepts, all weights and every tensor of numbers: the embedded tensor has one
      more axis, of size output_dim, and the vector at each position depends on the number at this position only: it is the
      perceptron of that number *)
  Theorem C102_mlp_values (w : nat -> tensor R * tensor R) (x : tensor R) : weights_fit L dims w ->
    exists ls y, init_mlp_layers output_dim num_layers h = Ok ls /\ mlp_forward ls w (TFloat x) = Ok (TFloat y) /\
      shp y = shp x ++ [Z.to_nat output_dim] /\
      forall i k, valid (shp x) i -> k < Z.to_nat output_dim -> get y (i ++ [k]) = activation dims (weight_at w) (bias_of w) (get x i) L k.
  Proof.
    intros Hw. destruct mlp_layers as (ls & E & El). exists ls.
    destruct (seq_ok (fun t => nth t ([1%Z] ++ hidden_of num_layers h ++ [output_dim]) 0%Z) w x L 0 (add_axis x)) as (z & Ez & Hz & Gz).
    - exact Hw.
    - reflexivity.
    - intros i k Hi Hk. cbn [add_axis get]. rewrite (droplast_app i [k] 1 eq_refl). reflexivity.
    - exists z. split; [exact E|]. split; [rewrite El; exact Ez|].
      change (0 + L) with L in Hz, Gz. fold (dims L) in Hz, Gz. rewrite dims_L in Hz, Gz. split; [exact Hz|]. intros i k Hi Hk. exact (Gz i k Hi Hk).
  Qed.
  Lemma activation_range W B x k : (0 < activation dims W B x L k < 1)%R.
  Proof.
    destruct L as [|t] eqn:E; [lia|]. cbn [activation]. set (z := (- _)%R). pose proof (exp_pos z). rewrite rdiv1. split; [apply Rinv_0_lt_compat; lra|].
    rewrite <- Rinv_1. apply Rinv_lt_contravar; lra.
  Qed.
  (** "Sigmoid avoids putting outputs to 0": every component of every tensor that the embedding function returns lies strictly
      between 0 and 1 *)
  Theorem C102_mlp_range (w : nat -> tensor R * tensor R) (x y : tensor R) ls : weights_fit L dims w ->
    init_mlp_layers output_dim num_layers h = Ok ls -> mlp_forward ls w (TFloat x) = Ok (TFloat y) ->
    forall i k, valid (shp x) i -> k < Z.to_nat output_dim -> (0 < get y (i ++ [k]) < 1)%R.
  Proof.
    intros Hw E Ey i k Hi Hk. destruct (C102_mlp_values w x Hw) as (ls' & y' & E' & Ey' & _ & Gy). rewrite E in E'. injection E' as <-.
    rewrite Ey in Ey'. injection Ey' as <-. rewrite (Gy i k Hi Hk). apply activation_range.
  Qed.
  (** integer tensors (discrete data domains) always fail, so init_mlp_embed cannot be used with a discrete domain *)
  Theorem C102_discrete_fails (w : nat -> tensor R * tensor R) (ix : tensor Z) ls : init_mlp_layers output_dim num_layers h = Ok ls ->
    mlp_forward ls w (TLong ix) = Err RuntimeError.
  Proof.
    intros E. destruct mlp_layers as (ls' & E' & El). rewrite E in E'. injection E' as <-. destruct L as [|t] eqn:EL; [lia|]. rewrite El. reflexivity.
  Qed.
End Mlp.

Section Density.
  Variables (output_dim num_layers : Z) (h : hidden) (w : nat -> tensor R * tensor R) (a b : R).
  Notation L := (Z.to_nat num_layers).
  Notation dims := (layer_sizes output_dim num_layers h).
  Notation d := (Z.to_nat output_dim).
  Hypotheses (HL : (1 <= num_layers)%Z) (Hh : Z.of_nat (List.length (hidden_of num_layers h)) = (num_layers - 1)%Z).
  Hypothesis Hw : weights_fit L dims w.
  Hypothesis Hab : (a < b)%R.
  (** the embedding vector of the number x *)
  Definition mlp_vector (x : R) (k : nat) : R := activation dims (weight_at w) (bias_of w) x L k.
  Lemma mlp_embeds ls : init_mlp_layers output_dim num_layers h = Ok ls -> embeds_interval (K := R_num) (mlp_fun ls w) a b d mlp_vector.
  Proof.
    intros E x _. destruct (C102_mlp_values output_dim num_layers h HL Hh w x Hw) as (ls' & y & E' & Ey & Hy & Gy). rewrite E in E'. injection E' as <-.
    assert (Em : mlp_fun ls w (TFloat (tmap (nofR R_num) x)) = y).
    { assert (Ef : mlp_fun ls w (TFloat x) = y) by (unfold mlp_fun; rewrite Ey; reflexivity). clear - Ef. destruct x as [sh g]. exact Ef. }
    split; [exact (eq_trans (f_equal (@shp R) Em) Hy)|]. intros i k Hi Hk. rewrite Em. exact (Gy i k Hi Hk).
  Qed.
  (** no component of the last layer's input exceeds this number in absolute value (the hidden layers have values between 0 and 1) *)
  Definition largest (k : nat) : R :=
    (bsum (S := R_ops) (dims (L - 1)) (fun i => Rabs (weight_at w (L - 1) k i)) * (if (num_layers =? 1)%Z then Rmax (Rabs a) (Rabs b) else 1) + Rabs (bias_of w (L - 1) k))%R.
  Lemma bsum_le n (f g : nat -> R) : (forall i, i < n -> (f i <= g i)%R) -> (bsum (S := R_ops) n f <= bsum (S := R_ops) n g)%R.
  Proof. intros H. induction n as [|n IH]; [cbn; lra|]. cbn [bsum]. apply Rplus_le_compat; [apply IH; intros; apply H; lia|apply H; lia]. Qed.
  Lemma bsum_opp n (f : nat -> R) : bsum (S := R_ops) n (fun i => (- f i)%R) = (- bsum (S := R_ops) n f)%R.
  Proof. induction n as [|n IH]; [cbn; lra|]. cbn [bsum]. rewrite IH. cbn. lra. Qed.
  Lemma bsum_scale n (f : nat -> R) c : bsum (S := R_ops) n (fun i => (f i * c)%R) = (bsum (S := R_ops) n f * c)%R.
  Proof. induction n as [|n IH]; [cbn; lra|]. cbn [bsum]. rewrite IH. cbn. lra. Qed.
  Lemma vector_low x k : (a <= x <= b)%R -> (/ (1 + exp (largest k)) <= mlp_vector x k)%R.
  Proof.
    intros Hx. unfold mlp_vector, largest. destruct L as [|t] eqn:E; [lia|]. cbn [activation Nat.sub]. rewrite Nat.sub_0_r, rdiv1.
    set (r := (if (num_layers =? 1)%Z then Rmax (Rabs a) (Rabs b) else 1)%R).
    assert (Hr : forall i, (Rabs (activation dims (weight_at w) (bias_of w) x t i) <= r)%R).
    { intros i. unfold r. destruct (Z.eqb_spec num_layers 1) as [E1|E1].
      - assert (t = 0) as -> by lia. cbn [activation]. pose proof (Rmax_l (Rabs a) (Rabs b)). pose proof (Rmax_r (Rabs a) (Rabs b)). pose proof (Rle_abs b). pose proof (Rle_abs (- a)). rewrite Rabs_Ropp in *. apply Rabs_le. lra.
      - destruct t as [|t]; [lia|]. cbn [activation]. set (z := (- _)%R). pose proof (exp_pos z). rewrite rdiv1. rewrite Rabs_pos_eq by (left; apply Rinv_0_lt_compat; lra).
        rewrite <- Rinv_1. apply Rinv_le_contravar; lra. }
    set (s := bsum (S := R_ops) (dims t) (fun i => (weight_at w t k i * activation dims (weight_at w) (bias_of w) x t i)%R)).
    assert (Hs : (- (bsum (S := R_ops) (dims t) (fun i => Rabs (weight_at w t k i)) * r) <= s)%R).
    { unfold s. rewrite <- bsum_scale, <- bsum_opp. apply bsum_le. intros i _. specialize (Hr i). pose proof (Rabs_pos (weight_at w t k i)).
      pose proof (Rle_abs (- (weight_at w t k i * activation dims (weight_at w) (bias_of w) x t i))) as Q. rewrite Rabs_Ropp, Rabs_mult in Q.
      assert (Rabs (weight_at w t k i) * Rabs (activation dims (weight_at w) (bias_of w) x t i) <= Rabs (weight_at w t k i) * r)%R by (apply Rmult_le_compat_l; assumption). lra. }
    pose proof (Rle_abs (- bias_of w t k)) as Hb. rewrite Rabs_Ropp in Hb.
    apply Rinv_le_contravar; [pose proof (exp_pos (- (s + bias_of w t k))); lra|]. apply Rplus_le_compat_l.
    set (u := (bsum (S := R_ops) (dims t) (fun i => Rabs (weight_at w t k i)) * r + Rabs (bias_of w t k))%R).
    assert (Hu : (- (s + bias_of w t k) <= u)%R) by (unfold u; lra). destruct Hu as [Hu|Hu]; [left; apply exp_increasing; exact Hu|rewrite Hu; lra].
  Qed.
  Lemma weights_total n : 1 < n -> bsum (S := R_ops) n (fun q => trap_weight n (grid a b n) q) = (b - a)%R.
  Proof.
    intros Hn. transitivity (trapezoid n (grid a b n) (fun _ => 1%R)).
    { rewrite trapezoid_weights. apply (bsum_ext (S := R_ops)). intros. symmetry. apply Rmult_1_r. }
    unfold trapezoid. transitivity (grid a b n (n - 1) - grid a b n 0)%R.
    - generalize (n - 1) as m. induction m as [|m IH]; [cbn [bsum]; cbn; lra|]. cbn [bsum]. rewrite IH. cbn [R_ops sadd]. lra.
    - unfold grid. cbn [INR]. assert (0 < INR (n - 1))%R by (apply lt_0_INR; lia). match goal with |- ?x = ?y => change (@eq R x y) end. field. lra.
  Qed.
  (** two components with the product of their lower bounds above the tolerance of torch.allclose *)
  Definition visible (k k' : nat) : Prop :=
    k < d /\ k' < d /\ k <> k' /\ ((1 + exp (largest k)) * (1 + exp (largest k')) < (b - a) * 99999000)%R.
  Lemma mlp_lossless : d = 1 \/ (exists k k', visible k k') ->
    EmbSpec.lossless (K := R_num) d (gram_matrix (K := R_num) 1000 (trap_weight 1000 (grid a b 1000)) (fun q => mlp_vector (grid a b 1000 q))).
  Proof.
    change 1000 with num_points_default. assert (HN : 1 < num_points_default) by (apply Nat.ltb_lt; reflexivity).
    intros [E1|(k & k' & Hk & Hk' & Hne & Hv)].
    - right. split; [intros k k' H1 H2 H3; exfalso; apply H3; rewrite E1 in H1, H2; lia|]. left. eexists. intros k Hk. rewrite E1 in Hk. assert (k = 0) as -> by lia. reflexivity.
    - left. exists k, k'. split; [exact Hk|]. split; [exact Hk'|]. split; [exact Hne|]. unfold within_tol.
      set (G := gram_matrix (K := R_num) _ _ _ k k'). set (c := (/ (1 + exp (largest k)) * / (1 + exp (largest k')))%R).
      pose proof (exp_pos (largest k)). pose proof (exp_pos (largest k')).
      assert (Hc : (0 < c)%R) by (unfold c; apply Rmult_lt_0_compat; apply Rinv_0_lt_compat; lra).
      assert (HG : (c * (b - a) <= G)%R).
      { rewrite <- (weights_total num_points_default HN), Rmult_comm, <- bsum_scale. unfold G, gram_matrix. apply bsum_le. intros q Hq. cbn -[trap_weight grid c].
        apply Rmult_le_compat_l; [apply trap_weight_nonneg; assumption|].
        assert (Hin : (a <= grid a b num_points_default q <= b)%R).
        { unfold grid. assert (0 < INR (num_points_default - 1))%R by (apply lt_0_INR; lia).
          assert (INR q <= INR (num_points_default - 1))%R by (apply le_INR; lia). pose proof (pos_INR q).
          assert (P : (0 <= INR q * ((b - a) / INR (num_points_default - 1)) <= b - a)%R); [|lra].
          split; [apply Rmult_le_pos; [assumption|apply Rmult_le_pos; [lra|left; apply Rinv_0_lt_compat; assumption]]|].
          apply (Rmult_le_reg_r (INR (num_points_default - 1))); [assumption|]. unfold Rdiv. rewrite !Rmult_assoc, Rinv_l, Rmult_1_r by lra. rewrite (Rmult_comm (INR q)). apply Rmult_le_compat_l; lra. }
        unfold c. apply Rmult_le_compat; try (left; apply Rinv_0_lt_compat; lra); apply vector_low; exact Hin. }
      clearbody G.
      assert (HB : (/ 99999000 < c * (b - a))%R).
      { unfold c. rewrite <- Rinv_mult. set (P := ((1 + exp (largest k)) * (1 + exp (largest k')))%R) in *.
        assert (HP : (0 < P)%R) by (unfold P; apply Rmult_lt_0_compat; lra). apply (Rmult_lt_reg_l P); [exact HP|]. rewrite <- Rmult_assoc, Rinv_r by lra.
        apply (Rmult_lt_reg_r 99999000); [lra|]. rewrite Rmult_assoc, Rinv_l by lra. lra. }
      assert (HG0 : (0 < G)%R) by (apply (Rlt_le_trans _ (c * (b - a))); [apply Rmult_lt_0_compat; lra|exact HG]).
      assert (En : nabs R_num (rsub (s0 (s := R_num)) G) = G).
      { cbn. unfold Rminus. rewrite Rplus_0_l, Rabs_Ropp. apply Rabs_pos_eq. left. exact HG0. }
      assert (En' : nabs R_num G = G) by (cbn; apply Rabs_pos_eq; left; exact HG0).
      rewrite En, En'. lra.
  Qed.

  (** *** the log-densities of a ProbMPS / ProbUnifMPS with this embedding *)
  Variables (uniform : bool) (m : pmps R_num) (e : embedding R_num) (n D : nat).
  Hypothesis Hsh : shapes_of R_num uniform m n d D.
  Hypothesis He : pm_emb R_num m = Some e.
  Hypothesis Hinit : init_mlp_embed output_dim num_layers h (Some (mkDom true b (Some a))) w = Ok e.
  Hypothesis Hbias : pm_bias R_num m = None.
  Hypothesis Hn : 0 < n.
  Lemma mlp_built : exists ls, init_mlp_layers output_dim num_layers h = Ok ls /\ built R_num e (mlp_fun ls w) (mkDom true b (Some a)).
  Proof.
    destruct (mlp_layers output_dim num_layers h Hh) as (ls & E & _). exists ls. split; [exact E|].
    unfold init_mlp_embed in Hinit. rewrite E in Hinit. cbn [rbind] in Hinit. injection Hinit as <-. right. split; [reflexivity|]. split; reflexivity.
  Qed.
  (** the density of a sequence of numbers, up to the normalisation *)
  Definition mlp_amplitude (ys : list R) : R :=
    amplitude (K := R_num) D (edge_at (K := R_num) (pm_edge R_num m) 0) (edge_at (K := R_num) (pm_edge R_num m) 1)
      (fun t y => vec_site (K := R_num) d (pm_core R_num m) uniform None t (mlp_vector y)) ys.
  (** C102: whatever the weights of the perceptron are: if the product of two components is visible, every value that the model
      returns is the logarithm of a density that integrates (iterated trapezoid rule on the 1000-point grid) to 1 *)
  Theorem C102_density (x : tensor R) (slim par : bool) (batch : nat) (T : tensor xreal) :
    d = 1 \/ (exists k k', visible k k') ->
    shp x = [batch; n] -> (forall p t, p < batch -> t < n -> (a <= get x [p; t] <= b)%R) ->
    snd (fwd R_num uniform m (TFloat x) slim par) = Ok T ->
    exists Zn, (0 < Zn)%R /\
      (forall p, p < batch -> is_log (get T [p]) (mlp_amplitude (map (fun t => get x [p; t]) (seq 0 n)) ^ 2 / Zn)) /\
      iter_trapezoid n 1000 (grid a b 1000) (fun ks => mlp_amplitude (map (grid a b 1000) ks) ^ 2 / Zn)%R = 1%R.
  Proof.
    intros Hv Hs Hr E. destruct mlp_built as (ls & El & Hb).
    assert (E' : snd (fwd R_num uniform m (TFloat (tmap (nofR R_num) x)) slim par) = Ok T) by (clear - E; destruct x; exact E).
    destruct (C17_continuous_normalised_partial R_num uniform m e (mlp_fun ls w) a b d mlp_vector x slim par batch n D T Hab Hsh He Hb (mlp_embeds ls El) (mlp_lossless Hv) Hbias Hn Hs Hr E')
      as (dens & H1 & (Zn & HZ & H2) & H3).
    assert (Hd : forall ys, dens ys = (mlp_amplitude ys ^ 2 / Zn)%R).
    { intros ys. rewrite H2. f_equal. unfold abs2. cbn [R_num nabs]. rewrite <- Rabs_mult, Rabs_pos_eq by apply Rle_0_sqr. unfold mlp_amplitude. cbn [pow]. rewrite Rmult_1_r. reflexivity. }
    exists Zn. split; [exact HZ|]. split; [intros p Hp; rewrite <- Hd; apply H1; exact Hp|].
    rewrite <- H3. f_equal. apply FunctionalExtensionality.functional_extensionality. intros ks. symmetry. apply Hd.
  Qed.

  (** *** positive parameters: the call never fails (the motivation for the sigmoids) *)
  Lemma chain_positive {X} (site : nat -> X -> mat R_num) (xs : list X) t N : t + List.length xs <= N ->
    (forall t y i j, t < N -> i < D -> j < D -> (0 < site t y i j)%R) ->
    (forall i j, i < D -> j < D -> (0 <= chain (K := R_num) (sites (K := R_num) D site t xs) i j)%R) /\
    (forall j, j < D -> (0 < chain (K := R_num) (sites (K := R_num) D site t xs) j j)%R) /\
    (xs <> [] -> forall i j, i < D -> j < D -> (0 < chain (K := R_num) (sites (K := R_num) D site t xs) i j)%R).
  Proof.
    intros Hl Hp. revert t Hl. induction xs as [|y xs IH]; intros t Hl.
    - cbn [sites chain]. split; [|split]; [| |intros F; congruence]; intros; cbn; unfold delta.
      + destruct (i =? j); cbn; lra.
      + rewrite Nat.eqb_refl. cbn. lra.
    - cbn [List.length] in Hl. destruct (IH (S t) ltac:(lia)) as (I1 & I2 & _).
      assert (G : forall i j, i < D -> j < D -> (0 < chain (K := R_num) (sites (K := R_num) D site t (y :: xs)) i j)%R).
      { intros i j Hi Hj. cbn [sites]. rewrite chain_cons. unfold mmul. apply (bsumR_pos D _ j); [|exact Hj|].
        - intros k Hk. apply Rmult_le_pos; [left; apply Hp; [lia|assumption..]|apply I1; assumption].
        - apply Rmult_lt_0_compat; [apply Hp; [lia|assumption..]|apply I2; assumption]. }
      split; [intros; left; apply G; assumption|]. split; [intros; apply G; assumption|intros _; exact G].
  Qed.
  (** every component of the cores and of the two edge vectors is positive *)
  Definition positive_model : Prop :=
    (forall t k i j, t < n -> k < d -> i < D -> j < D -> (0 < entry (K := R_num) (pm_core R_num m) uniform t k i j)%R) /\
    (forall s i, s < 2 -> i < D -> (0 < get (pm_edge R_num m) [s; i])%R).
  Lemma amplitude_positive ys : positive_model -> ys <> [] -> List.length ys <= n -> (0 < mlp_amplitude ys)%R.
  Proof.
    intros [Hc Hed] Hy Hlen. destruct (shapes_get R_num uniform m n d D Hsh) as (Hd & HD & _).
    unfold mlp_amplitude, amplitude, sandwich.
    destruct (chain_positive (fun t y => vec_site (K := R_num) d (pm_core R_num m) uniform None t (mlp_vector y)) ys 0 n) as (_ & _ & P).
    { exact Hlen. }
    { intros t y i j Ht Hi Hj. unfold vec_site, bias_at. cbn -[bsum]. rewrite Rplus_0_r. assert (Q : forall k, k < d -> (0 < mlp_vector y k * entry (K := R_num) (pm_core R_num m) uniform t k i j)%R).
      { intros k Hk. apply Rmult_lt_0_compat; [apply activation_range; assumption|apply Hc; assumption]. }
      apply (bsumR_pos d _ 0); [intros k Hk; left; apply Q; exact Hk|exact Hd|apply Q; exact Hd]. }
    specialize (P Hy).
    assert (G : forall i j, i < D -> j < D -> (0 < edge_at (K := R_num) (pm_edge R_num m) 0 i * (chain (K := R_num) (sites (K := R_num) D (fun t y => vec_site (K := R_num) d (pm_core R_num m) uniform None t (mlp_vector y)) 0 ys) i j * edge_at (K := R_num) (pm_edge R_num m) 1 j))%R).
    { intros i j Hi Hj. apply Rmult_lt_0_compat; [apply Hed; [lia|exact Hi]|]. apply Rmult_lt_0_compat; [apply P; assumption|apply Hed; [lia|exact Hj]]. }
    assert (G1 : forall i, i < D -> (0 < bsum (S := R_ops) D (fun j => edge_at (K := R_num) (pm_edge R_num m) 0 i * (chain (K := R_num) (sites (K := R_num) D (fun t y => vec_site (K := R_num) d (pm_core R_num m) uniform None t (mlp_vector y)) 0 ys) i j * edge_at (K := R_num) (pm_edge R_num m) 1 j))%R)%R).
    { intros i Hi. apply (bsumR_pos D _ 0); [intros j Hj; left; apply G; assumption|exact HD|apply G; assumption]. }
    apply (bsumR_pos D _ 0); [intros i Hi; left; apply G1; exact Hi|exact HD|apply G1; exact HD].
  Qed.
  Lemma sites_map {X Y} (site : nat -> Y -> mat R_num) (g : X -> Y) (l : list X) t :
    sites (K := R_num) D site t (map g l) = sites (K := R_num) D (fun t q => site t (g q)) t l.
  Proof. revert t. induction l as [|k l IH]; intros t; [reflexivity|]. cbn [map sites]. rewrite IH. reflexivity. Qed.
  Lemma zeros_word M : 0 < M -> forall k, In (repeat 0 k) (words M k).
  Proof.
    intros HM. induction k as [|k IH]; [left; reflexivity|]. cbn [repeat words]. apply in_flat_map. exists 0. split; [apply in_seq; lia|]. apply in_map. exact IH.
  Qed.
  Lemma zeros_weight (wt : nat -> R) (k : nat) : (0 < wt 0%nat)%R -> (0 < weight_of wt (repeat 0%nat k))%R.
  Proof. intros H. induction k as [|k IH]; cbn; [lra|apply Rmult_lt_0_compat; assumption]. Qed.
  Lemma first_weight : (0 < trap_weight num_points_default (grid a b num_points_default) 0%nat)%R.
  Proof.
    unfold trap_weight. replace (1 <? num_points_default) with true by reflexivity. cbn [Nat.ltb Nat.leb]. unfold grid. 
    assert (0 < INR (num_points_default - 1))%R by (apply lt_0_INR; apply Nat.ltb_lt; reflexivity).
    assert (0 < (b - a) / INR (num_points_default - 1))%R by (apply Rmult_lt_0_compat; [lra|apply Rinv_0_lt_compat; assumption]).
    cbn [INR]. lra.
  Qed.
  Theorem C102_positive_returns (x : tensor R) (slim par : bool) (batch : nat) :
    positive_model -> d = 1 \/ (exists k k', visible k k') ->
    shp x = [batch; n] -> (forall p t, p < batch -> t < n -> (a <= get x [p; t] <= b)%R) ->
    exists T, snd (fwd R_num uniform m (TFloat x) slim par) = Ok T /\ shp T = [batch] /\ forall p, p < batch -> exists v, get T [p] = XFin v.
  Proof.
    intros Hpos Hv Hs Hr. destruct mlp_built as (ls & El & Hb).
    pose proof (continuous_values R_num uniform m e (mlp_fun ls w) a b d mlp_vector x slim par batch n D Hab Hsh He Hb (mlp_embeds ls El) (mlp_lossless Hv) Hs Hr Hn (fun _ => Hbias)) as C.
    cbv zeta in C. rewrite Hbias in C.
    assert (Ex : TFloat (tmap (nofR R_num) x) = TFloat (X := R_num) x) by (destruct x; reflexivity). rewrite Ex in C. clear Ex.
    assert (Hpsi : forall p, (0 < mlp_amplitude (map (fun t => get x [p; t]) (seq 0 n)))%R).
    { intros p. apply amplitude_positive; [exact Hpos| |rewrite map_length, seq_length; lia]. destruct n as [|n']; [lia|discriminate]. }
    assert (HZ : (0 < emb_Z R_num m uniform n d D num_points_default (trap_weight num_points_default (grid a b num_points_default)) (fun q => mlp_vector (grid a b num_points_default q)))%R).
    { rewrite emb_Z_sum by (left; exact Hbias). unfold emb_sum. assert (HN : 1 < num_points_default) by (apply Nat.ltb_lt; reflexivity).
      apply (lsumR_pos _ _ (repeat 0 n)).
      - intros ks Hk. apply Rmult_le_pos; [apply (weight_nonneg _ num_points_default); [intros; apply trap_weight_nonneg; assumption|apply (words_letters _ _ _ Hk)]|]. unfold abs2. apply Rle_0_sqr.
      - apply zeros_word. lia.
      - apply Rmult_lt_0_compat; [apply zeros_weight, first_weight|].
        assert (Ep : emb_psi R_num uniform m d D (fun q => mlp_vector (grid a b num_points_default q)) (repeat 0 n) = mlp_amplitude (map (grid a b num_points_default) (repeat 0%nat n))).
        { unfold emb_psi, mlp_amplitude, amplitude. rewrite Hbias. rewrite sites_map. reflexivity. }
        rewrite Ep. assert (Hq : (0 < mlp_amplitude (map (grid a b num_points_default) (repeat 0%nat n)))%R) by (apply amplitude_positive; [exact Hpos|destruct n; [lia|discriminate]|rewrite map_length, repeat_length; lia]).
        unfold abs2. cbn [R_num nabs]. rewrite Rabs_pos_eq by (left; exact Hq). apply Rmult_lt_0_compat; exact Hq. }
    match type of C with match ?r with Ok _ => _ | Err _ => _ end => change (exists T, r = Ok T /\ shp T = [batch] /\ forall p, p < batch -> exists v, get T [p] = XFin v); destruct r as [T|er] end.
    - destruct C as (_ & HT & C). exists T. split; [reflexivity|]. split; [exact HT|]. intros p Hp. specialize (C p Hp). specialize (Hpsi p).
      destruct C as [(_ & C)|(F & _)]; [eexists; exact C|exfalso; revert F]. 
      assert (P : (0 < abs2 (K := R_num) (mlp_amplitude (map (fun t => get x [p; t]) (seq 0 n))))%R).
      { unfold abs2. cbn [R_num nabs]. rewrite Rabs_pos_eq by (left; exact Hpsi). apply Rmult_lt_0_compat; exact Hpsi. }
      intros F. apply Rmult_integral in F as [F|F]; [unfold mlp_amplitude in P; rewrite F in P; lra|]. apply Rinv_neq_0_compat in F; [exact F|]. lra.
    - exfalso. destruct C as (_ & [C|(p & _ & C)]).
      + rewrite C in HZ. lra.
      + specialize (Hpsi p). unfold mlp_amplitude in Hpsi. rewrite C in Hpsi. cbn in Hpsi. lra.
  Qed.
End Density.

(** the default domain [0, 1]: two output components whose last-layer weights and bias are bounded by 8 suffice *)
Lemma visible_unit (output_dim num_layers : Z) (h : hidden) (w : nat -> tensor R * tensor R) k k' :
  k < Z.to_nat output_dim -> k' < Z.to_nat output_dim -> k <> k' ->
  (largest output_dim num_layers h w 0 1 k <= 8)%R -> (largest output_dim num_layers h w 0 1 k' <= 8)%R ->
  visible output_dim num_layers h w 0 1 k k'.
Proof.
  intros Hk Hk' Hne L1 L2. split; [exact Hk|]. split; [exact Hk'|]. split; [exact Hne|].
  assert (E8 : (exp 8 <= 6561)%R).
  { replace 8%R with (1 + 1 + 1 + 1 + 1 + 1 + 1 + 1)%R by lra. rewrite !exp_plus. pose proof exp_le_3 as E. pose proof (exp_pos 1) as P. set (z := exp 1) in *.
    assert (M : forall u v, (0 <= u)%R -> (u <= v)%R -> (u * z <= v * 3)%R) by (intros u v Hu Hv; apply Rmult_le_compat; lra).
    assert (N : forall u, (0 <= u)%R -> (0 <= u * z)%R) by (intros u Hu; apply Rmult_le_pos; lra).
    replace 6561%R with (3 * 3 * 3 * 3 * 3 * 3 * 3 * 3)%R by lra. repeat (apply M; [repeat apply N; lra|]). exact E. }
  assert (Q : forall u, (u <= 8)%R -> (1 + exp u <= 6562)%R).
  { intros u [Hu|Hu]; [pose proof (exp_increasing _ _ Hu)|rewrite Hu]; lra. }
  pose proof (Q _ L1) as Q1. pose proof (Q _ L2) as Q2. pose proof (exp_pos (largest output_dim num_layers h w 0 1 k)). pose proof (exp_pos (largest output_dim num_layers h w 0 1 k')).
  apply (Rle_lt_trans _ (6562 * 6562)%R); [apply Rmult_le_compat; lra|lra].
Qed.
Theorem C102_density_unit (output_dim num_layers : Z) (h : hidden) (w : nat -> tensor R * tensor R) (uniform : bool) (m : pmps R_num)
    (e : embedding R_num) (n D k k' : nat) (x : tensor R) (slim par : bool) (batch : nat) (T : tensor xreal) :
  (1 <= num_layers)%Z -> Z.of_nat (List.length (hidden_of num_layers h)) = (num_layers - 1)%Z ->
  weights_fit (Z.to_nat num_layers) (layer_sizes output_dim num_layers h) w ->
  init_mlp_embed output_dim num_layers h None w = Ok e ->
  shapes_of R_num uniform m n (Z.to_nat output_dim) D -> pm_emb R_num m = Some e -> pm_bias R_num m = None -> 0 < n ->
  k < Z.to_nat output_dim -> k' < Z.to_nat output_dim -> k <> k' ->
  (largest output_dim num_layers h w 0 1 k <= 8)%R -> (largest output_dim num_layers h w 0 1 k' <= 8)%R ->
  shp x = [batch; n] -> (forall p t, p < batch -> t < n -> (0 <= get x [p; t] <= 1)%R) ->
  snd (fwd R_num uniform m (TFloat x) slim par) = Ok T ->
  exists Zn, (0 < Zn)%R /\
    (forall p, p < batch -> is_log (get T [p]) (mlp_amplitude output_dim num_layers h w uniform m D (map (fun t => get x [p; t]) (seq 0 n)) ^ 2 / Zn)) /\
    iter_trapezoid n 1000 (grid 0 1 1000) (fun ks => mlp_amplitude output_dim num_layers h w uniform m D (map (grid 0 1 1000) ks) ^ 2 / Zn)%R = 1%R.
Proof.
  intros HL Hh Hw Hi Hsh He Hb Hn Hk Hk' Hne L1 L2 Hs Hr E.
  apply (C102_density output_dim num_layers h w 0 1 HL Hh Hw ltac:(lra) uniform m e n D Hsh He Hi Hb Hn x slim par batch T); try assumption.
  right. exists k, k'. apply visible_unit; assumption.
Qed.

(** *** a concrete case: output_dim 2, two layers, hidden dimension 3, all weights 1, biases 0; bond dimension 2, cores all ones *)
Definition mx_w : nat -> tensor R * tensor R := fun k =>
  match k with 0 => (tconst [3; 1] 1%R, tconst [3] 0%R) | _ => (tconst [2; 3] 1%R, tconst [2] 0%R) end.
Definition mx_emb : embedding R_num := match init_mlp_embed 2 2 (HInt 3) None mx_w with Ok e => e | Err _ => trainable_embedding R_num (fun _ => tconst [] 0%R) (mkDom true 1 (Some 0%R)) end.
Definition mx_model : pmps R_num := mkP R_num (tconst [2; 2; 2; 2] 1%R) (tconst [2; 2] 1%R) None (Some mx_emb).
Definition mx_x : tensor R := tconst [3; 2] (1 / 2)%R.
Example C102_hyps_met :
  (1 <= 2)%Z /\ Z.of_nat (List.length (hidden_of 2 (HInt 3))) = (2 - 1)%Z /\ weights_fit 2 (layer_sizes 2 2 (HInt 3)) mx_w /\
  init_mlp_embed 2 2 (HInt 3) None mx_w = Ok mx_emb /\ shapes_of R_num false mx_model 2 2 2 /\
  visible 2 2 (HInt 3) mx_w 0 1 0 1 /\ positive_model 2 false mx_model 2 2 /\
  exists T, snd (fwd R_num false mx_model (TFloat mx_x) true false) = Ok T /\ shp T = [3].
Proof.
  assert (H1 : (1 <= 2)%Z) by lia. assert (H2 : Z.of_nat (List.length (hidden_of 2 (HInt 3))) = (2 - 1)%Z) by reflexivity.
  assert (H3 : weights_fit 2 (layer_sizes 2 2 (HInt 3)) mx_w).
  { intros t Ht. destruct t as [|[|t]]; [split; reflexivity|split; reflexivity|lia]. }
  assert (H4 : init_mlp_embed 2 2 (HInt 3) None mx_w = Ok mx_emb) by reflexivity.
  assert (H5 : shapes_of R_num false mx_model 2 2 2) by (repeat split; cbn; lia).
  assert (L : forall k, (largest 2 2 (HInt 3) mx_w 0 1 k <= 8)%R).
  { intros k. apply (Rle_trans _ (((0 + Rabs 1) + Rabs 1) + Rabs 1 + 0 + Rabs 0)%R); [|rewrite Rabs_R1, Rabs_R0; lra].
    right. change (largest 2 2 (HInt 3) mx_w 0 1 k) with ((0 + Rabs 1 + Rabs 1 + Rabs 1) * 1 + Rabs 0)%R. lra. }
  assert (H6 : visible 2 2 (HInt 3) mx_w 0 1 0 1) by (apply visible_unit; [cbn; lia|cbn; lia|lia|apply L|apply L]).
  assert (H7 : positive_model 2 false mx_model 2 2) by (split; intros; cbn; lra).
  split; [exact H1|]. split; [exact H2|]. split; [exact H3|]. split; [exact H4|]. split; [exact H5|]. split; [exact H6|]. split; [exact H7|].
  destruct (C102_positive_returns 2 2 (HInt 3) mx_w 0 1 H1 H2 H3 ltac:(lra) false mx_model mx_emb 2 2 H5 eq_refl H4 eq_refl ltac:(lia) mx_x true false 3 H7) as (T & E & HT & _).
  - right. exists 0, 1. exact H6.
  - reflexivity.
  - intros. cbn. lra.
  - exists T. split; [exact E|exact HT].
Qed.
Print Assumptions C102_mlp_values.
Print Assumptions C102_mlp_range.
Print Assumptions C102_discrete_fails.
Print Assumptions C102_density.
Print Assumptions C102_density_unit.
Print Assumptions C102_positive_returns.
