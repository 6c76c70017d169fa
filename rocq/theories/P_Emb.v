(** * P_Emb: properties C13 and C16-C19 and C22 (models with an embedding). *)
From Coq Require Import Ring_theory Ring Reals Lra Permutation.
From Verif Require Import Base Scalars Tensor Utils2 MpsBase Embeddings ProbMps Spec MatSpec ModelSpec EmbSpec
  LinAlg Utils2Proofs EinsumProofs MatseqProofs SlimProofs LogNorm ProbProofs EmbProofs P_Prob.

Section P.
  Variable K : numfield.
  Add Ring KrPE : (rth K).
  Notation xr := (tensor xreal).

  (** amplitude of the sequence of values [xs] under the embedding vectors [phi]:
      psi(phi(x_1),...,phi(x_n)), site matrices sum_k phi_k A_k + B *)
  Definition emb_psi (uniform : bool) (m : pmps K) (d D : nat) (phi : nat -> nat -> K) (xs : list nat) : K :=
    amplitude D (edge_at (pm_edge K m) 0) (edge_at (pm_edge K m) 1)
      (fun t q => vec_site d (pm_core K m) uniform (pm_bias K m) t (phi q)) xs.
  (** sum over all sequences of n values in 0..M-1, with weights *)
  Definition emb_sum (uniform : bool) (m : pmps K) (n d D M : nat) wt phi : R :=
    lsum (K := R_ops) (words M n) (fun xs => (weight_of wt xs * abs2 (emb_psi uniform m d D phi xs))%R).

  Lemma emb_Z_sum uniform m n d D M wt phi :
    (pm_bias K m = None \/ forall q, q < M -> bsum d (phi q) = s1) ->
    emb_Z K m uniform n d D M wt phi = emb_sum uniform m n d D M wt phi.
  Proof.
    intros H. unfold emb_Z, emb_sum, weighted_partition_fn. apply (lsum_ext R_cring). intros xs Hx. f_equal. f_equal.
    apply amplitude_ext. intros t q i j _ Hq _ _. apply norm_site_vec.
    destruct H as [H|H]; [left; exact H|right; apply H; apply (words_letters M n xs Hx q Hq)].
  Qed.

  (** values returned by forward, for an embedding over the discrete domain {0..M-1} whose
      lambda matrix survives the simplification *)
  Lemma discrete_values (uniform : bool) (m : pmps K) e f M d phi mn (ix : tensor Z) (slim par : bool) (batch n D : nat) :
    shapes_of K uniform m n d D -> pm_emb K m = Some e -> built K e f (mkDom false (INR M) mn) ->
    embeds_discrete f M d phi -> lossless d (gram_matrix M (fun _ => 1%R) phi) ->
    wf_input (K := K) (TLong ix) batch n M -> 0 < n -> (slim = true -> pm_bias K m = None) ->
    let Zn := emb_Z K m uniform n d D M (fun _ => 1%R) phi in
    match snd (fwd K uniform m (TLong ix) slim par) with
    | Ok T => (0 < Zn)%R /\ shp T = [batch] /\
        forall b, b < batch -> is_log (get T [b]) (abs2 (emb_psi uniform m d D phi (row_letters ix n b)) / Zn)
    | Err er => er = AssertionError /\
        (Zn = 0%R \/ exists b, b < batch /\ emb_psi uniform m d D phi (row_letters ix n b) = s0)
    end.
  Proof.
    intros Hsh He Hb Hf Hll Hx Hn Hsl Zn.
    destruct (shapes_get K uniform m n d D Hsh) as (Hd & HD & _).
    destruct (raw_lambda_discrete K f M d phi mn num_points_default Hf) as (raw & Er & Hrs & Hrg).
    destruct (emb_forward_ok K e f _ (TLong ix) raw d Hb Er Hrs) as (e' & Ee & Hl & _).
    destruct Hx as [Hs Hr].
    destruct (Hf ix) as [Hfs Hfg].
    { intros i Hi. rewrite Hs in Hi. apply (valid_app2_inv []) in Hi as (b0 & p & q & -> & Hb0 & Hp & Hq).
      apply valid_nil in Hb0. subst b0. apply Hr; assumption. }
    rewrite Hs in Hfs. cbn [app] in Hfs.
    assert (Hrow : forall b, b < batch ->
      row_amp (pm_core K m) (pm_edge K m) (pm_bias K m) uniform n d D (TFloat (f (TLong ix))) b = emb_psi uniform m d D phi (row_letters ix n b)).
    { intros b Hb'. apply (row_amp_embedded K 0).
      - unfold row_letters. rewrite map_length. apply seq_length.
      - intros t k Ht Hk. specialize (Hfg [b; t] k). cbn [app] in Hfg. rewrite Hfg; [|rewrite Hs; apply valid_2; split; assumption|exact Hk].
        f_equal. unfold row_letters.
        rewrite (nth_indep _ 0 (Z.to_nat (get ix [b; 0]))) by (rewrite map_length, seq_length; exact Ht).
        rewrite (map_nth (fun t => Z.to_nat (get ix [b; t]))), seq_nth by exact Ht. reflexivity. }
    pose proof (forward_emb_ok K uniform m e e' (TLong ix) (f (TLong ix)) _ (gram_matrix M (fun _ => 1%R) phi) slim par batch n d D M
      (fun _ => 1%R) phi Hsh He Ee Hl (simplify_lossless K raw d _ Hd Hrs Hrg Hll) (lamb_sum_gram K M _ phi d)
      ltac:(intros; lra) ltac:(exists []; exact Hs) Hfs Hn Hsl) as H.
    cbv zeta in H. fold Zn in H.
    destruct (snd (fwd K uniform m (TLong ix) slim par)) as [T|er].
    - destruct H as (HZ & HT & H). split; [exact HZ|]. split; [exact HT|]. intros b Hb'. rewrite <- Hrow by exact Hb'. apply H, Hb'.
    - destruct H as [-> [H|(b & Hb' & H)]]; split; try reflexivity; [left; exact H|].
      right. exists b. split; [exact Hb'|]. rewrite <- Hrow by exact Hb'. exact H.
  Qed.

  Lemma probs_sum (batch n M : nat) (ix : tensor Z) (T : xr) (Zn : R) (g : list nat -> R) :
    (0 < Zn)%R -> (forall b, b < batch -> is_log (get T [b]) (g (row_letters ix n b) / Zn)) ->
    Permutation (map (row_letters ix n) (seq 0 batch)) (words M n) ->
    bsum (S := R_ops) batch (fun b => prob_of (get T [b])) = (lsum (K := R_ops) (words M n) g / Zn)%R.
  Proof.
    intros HZ H Hperm.
    transitivity (bsum (S := R_ops) batch (fun b => g (row_letters ix n b) * / Zn)%R).
    { apply bsum_ext. intros b Hb. rewrite (is_log_prob _ _ (H b Hb)). reflexivity. }
    transitivity (bsum (S := R_ops) batch (fun b => g (row_letters ix n b)) * / Zn)%R.
    { apply (bsum_mul_r R_cring). }
    unfold Rdiv. f_equal.
    transitivity (lsum (K := R_ops) (seq 0 batch) (fun b => g (row_letters ix n b))).
    { symmetry. apply (lsum_seq R_cring). }
    transitivity (lsum (K := R_ops) (map (row_letters ix n) (seq 0 batch)) g).
    { symmetry. apply (lsum_map R_cring). }
    apply (lsum_perm R_cring). exact Hperm.
  Qed.
  Lemma emb_sum_one uniform m n d D M phi :
    emb_sum uniform m n d D M (fun _ => 1%R) phi = lsum (K := R_ops) (words M n) (fun xs => abs2 (emb_psi uniform m d D phi xs)).
  Proof. apply (lsum_ext R_cring). intros xs _. rewrite weight_one. apply Rmult_1_l. Qed.

  (** *** C16 / C13: normalisation over a discrete domain.
      Missing from C16: embeddings whose lambda matrix is altered by the 1e-8/1e-5
      tolerances.  Missing from C13: biased models with an embedding whose vectors do not
      have component sum 1. *)
  Theorem C16_discrete_normalised_partial (uniform : bool) (m : pmps K) e f M d phi mn (ix : tensor Z) (slim par : bool) (batch n D : nat) (T : xr) :
    shapes_of K uniform m n d D -> pm_emb K m = Some e -> built K e f (mkDom false (INR M) mn) ->
    embeds_discrete f M d phi -> lossless d (gram_matrix M (fun _ => 1%R) phi) ->
    pm_bias K m = None ->
    wf_input (K := K) (TLong ix) batch n M -> 0 < n ->
    snd (fwd K uniform m (TLong ix) slim par) = Ok T ->
    (** values: Born rule for the embedded sequence *)
    (forall b, b < batch -> is_log (get T [b])
       (abs2 (emb_psi uniform m d D phi (row_letters ix n b)) / emb_sum uniform m n d D M (fun _ => 1%R) phi)) /\
    (** normalisation *)
    (Permutation (map (row_letters ix n) (seq 0 batch)) (words M n) ->
     bsum (S := R_ops) batch (fun b => prob_of (get T [b])) = 1%R).
  Proof.
    intros Hsh He Hb Hf Hll Hbias Hx Hn E.
    pose proof (discrete_values uniform m e f M d phi mn ix slim par batch n D Hsh He Hb Hf Hll Hx Hn ltac:(auto)) as H.
    cbv zeta in H. rewrite E in H. rewrite emb_Z_sum in H by (left; exact Hbias). destruct H as (HZ & _ & H).
    split; [exact H|]. intros Hperm.
    rewrite (probs_sum batch n M ix T _ (fun xs => abs2 (emb_psi uniform m d D phi xs)) HZ H Hperm).
    rewrite <- emb_sum_one. apply Rinv_r. lra.
  Qed.
  (** biased models: when the components of each embedding vector sum to 1 *)
  Theorem C13_bias_normalised_partial (uniform : bool) (m : pmps K) e f M d phi mn (ix : tensor Z) (par : bool) (batch n D : nat) (T : xr) :
    shapes_of K uniform m n d D -> pm_emb K m = Some e -> built K e f (mkDom false (INR M) mn) ->
    embeds_discrete f M d phi -> lossless d (gram_matrix M (fun _ => 1%R) phi) ->
    (forall q, q < M -> bsum d (phi q) = s1) ->
    wf_input (K := K) (TLong ix) batch n M -> 0 < n ->
    snd (fwd K uniform m (TLong ix) false par) = Ok T ->
    Permutation (map (row_letters ix n) (seq 0 batch)) (words M n) ->
    bsum (S := R_ops) batch (fun b => prob_of (get T [b])) = 1%R.
  Proof.
    intros Hsh He Hb Hf Hll Hsum Hx Hn E Hperm.
    pose proof (discrete_values uniform m e f M d phi mn ix false par batch n D Hsh He Hb Hf Hll Hx Hn ltac:(discriminate)) as H.
    cbv zeta in H. rewrite E in H. rewrite emb_Z_sum in H by (right; exact Hsum). destruct H as (HZ & _ & H).
    rewrite (probs_sum batch n M ix T _ (fun xs => abs2 (emb_psi uniform m d D phi xs)) HZ H Hperm).
    rewrite <- emb_sum_one. apply Rinv_r. lra.
  Qed.
  (** what the probabilities of any biased model with embedding do sum to: the numerator
      uses the site matrices sum_k phi_k A_k + B, the denominator sum_k phi_k (A_k + B) *)
  Theorem C13_bias_total (uniform : bool) (m : pmps K) e f M d phi mn (ix : tensor Z) (par : bool) (batch n D : nat) (T : xr) :
    shapes_of K uniform m n d D -> pm_emb K m = Some e -> built K e f (mkDom false (INR M) mn) ->
    embeds_discrete f M d phi -> lossless d (gram_matrix M (fun _ => 1%R) phi) ->
    wf_input (K := K) (TLong ix) batch n M -> 0 < n ->
    snd (fwd K uniform m (TLong ix) false par) = Ok T ->
    Permutation (map (row_letters ix n) (seq 0 batch)) (words M n) ->
    bsum (S := R_ops) batch (fun b => prob_of (get T [b])) =
    (lsum (K := R_ops) (words M n) (fun xs => abs2 (emb_psi uniform m d D phi xs)) /
     lsum (K := R_ops) (words M n) (fun xs => abs2 (amplitude D (edge_at (pm_edge K m) 0) (edge_at (pm_edge K m) 1)
        (fun t q i j => bsum d (fun k => smul (phi q k) (letter_site (pm_core K m) uniform (pm_bias K m) t k i j))) xs)))%R.
  Proof.
    intros Hsh He Hb Hf Hll Hx Hn E Hperm.
    pose proof (discrete_values uniform m e f M d phi mn ix false par batch n D Hsh He Hb Hf Hll Hx Hn ltac:(discriminate)) as H.
    cbv zeta in H. rewrite E in H. destruct H as (HZ & _ & H).
    rewrite (probs_sum batch n M ix T _ (fun xs => abs2 (emb_psi uniform m d D phi xs)) HZ H Hperm).
    f_equal. unfold emb_Z, weighted_partition_fn. apply (lsum_ext R_cring). intros xs _. rewrite weight_one. apply Rmult_1_l.
  Qed.

  (** *** C17: continuous domains, 1000-point trapezoid rule *)
  Lemma iter_trapezoid_sum len N pt (g : list nat -> R) :
    iter_trapezoid len N pt g = lsum (K := R_ops) (words N len) (fun xs => (weight_of (trap_weight N pt) xs * g xs)%R).
  Proof.
    revert g; induction len as [|len IH]; intros g.
    - cbn. unfold weight_of. cbn. lra.
    - cbn [iter_trapezoid words]. rewrite trapezoid_weights.
      rewrite (lsum_flat_map R_cring). rewrite (lsum_seq R_cring). apply (bsum_ext (S := R_ops)). intros k _.
      rewrite IH. rewrite (lsum_map R_cring).
      transitivity (lsum (K := R_ops) (words N len) (fun xs => trap_weight N pt k * (weight_of (trap_weight N pt) xs * g (k :: xs)))%R).
      { symmetry. apply (lsum_mul_l R_cring). }
      apply (lsum_ext R_cring). intros xs _. unfold weight_of. cbn [fold_right]. cbn -[trap_weight]. lra.
  Qed.
  Lemma continuous_values (uniform : bool) (m : pmps K) e f a b d phi (x : tensor R) (slim par : bool) (batch n D : nat) :
    (a < b)%R -> shapes_of K uniform m n d D -> pm_emb K m = Some e -> built K e f (mkDom true b (Some a)) ->
    embeds_interval f a b d phi ->
    lossless d (gram_matrix num_points_default (trap_weight num_points_default (grid a b num_points_default)) (fun q => phi (grid a b num_points_default q))) ->
    shp x = [batch; n] -> (forall p t, p < batch -> t < n -> (a <= get x [p; t] <= b)%R) -> 0 < n ->
    (slim = true -> pm_bias K m = None) ->
    let Zn := emb_Z K m uniform n d D num_points_default (trap_weight num_points_default (grid a b num_points_default)) (fun q => phi (grid a b num_points_default q)) in
    let psi := fun p => amplitude D (edge_at (pm_edge K m) 0) (edge_at (pm_edge K m) 1)
                  (fun t y => vec_site d (pm_core K m) uniform (pm_bias K m) t (phi y))
                  (map (fun t => get x [p; t]) (seq 0 n)) in
    match snd (fwd K uniform m (TFloat (tmap (nofR K) x)) slim par) with
    | Ok T => (0 < Zn)%R /\ shp T = [batch] /\ forall p, p < batch -> is_log (get T [p]) (abs2 (psi p) / Zn)
    | Err er => er = AssertionError /\ (Zn = 0%R \/ exists p, p < batch /\ psi p = s0)
    end.
  Proof.
    intros Hab Hsh He Hb Hf Hll Hs Hr Hn Hsl Zn psi.
    destruct (shapes_get K uniform m n d D Hsh) as (Hd & HD & _).
    assert (HN : 1 < num_points_default) by (apply Nat.ltb_lt; reflexivity).
    destruct (raw_lambda_interval K f a b d phi num_points_default Hab HN Hf) as (raw & Er & Hrs & Hrg).
    destruct (emb_forward_ok K e f _ (TFloat (tmap (nofR K) x)) raw d Hb Er Hrs) as (e' & Ee & Hl & _).
    destruct (Hf x) as [Hfs Hfg].
    { intros i Hi. rewrite Hs in Hi. apply (valid_app2_inv []) in Hi as (b0 & p & q & -> & Hb0 & Hp & Hq).
      apply valid_nil in Hb0. subst b0. apply Hr; assumption. }
    rewrite Hs in Hfs. cbn [app] in Hfs.
    assert (Hrow : forall p, p < batch ->
      row_amp (pm_core K m) (pm_edge K m) (pm_bias K m) uniform n d D (TFloat (f (TFloat (tmap (nofR K) x)))) p = psi p).
    { intros p Hp. apply (row_amp_embedded K 0%R).
      - rewrite map_length. apply seq_length.
      - intros t k Ht Hk. specialize (Hfg [p; t] k). cbn [app] in Hfg. rewrite Hfg; [|rewrite Hs; apply valid_2; split; assumption|exact Hk].
        f_equal.
        rewrite (nth_indep _ 0%R (get x [p; 0])) by (rewrite map_length, seq_length; exact Ht).
        rewrite (map_nth (fun t => get x [p; t])), seq_nth by exact Ht. reflexivity. }
    pose proof (forward_emb_ok K uniform m e e' (TFloat (tmap (nofR K) x)) (f (TFloat (tmap (nofR K) x))) _
      (gram_matrix num_points_default (trap_weight num_points_default (grid a b num_points_default)) (fun q => phi (grid a b num_points_default q)))
      slim par batch n d D num_points_default
      (trap_weight num_points_default (grid a b num_points_default)) (fun q => phi (grid a b num_points_default q))
      Hsh He Ee Hl (simplify_lossless K raw d _ Hd Hrs Hrg Hll) (lamb_sum_gram K num_points_default _ _ d)
      ltac:(intros; apply trap_weight_nonneg; assumption) ltac:(exists []; exact Hs) Hfs Hn Hsl) as H.
    cbv zeta in H. fold Zn in H.
    destruct (snd (fwd K uniform m (TFloat (tmap (nofR K) x)) slim par)) as [T|er].
    - destruct H as (HZ & HT & H). split; [exact HZ|]. split; [exact HT|]. intros p Hp. rewrite <- Hrow by exact Hp. apply H, Hp.
    - destruct H as [-> [H|(p & Hp & H)]]; split; try reflexivity; [left; exact H|].
      right. exists p. split; [exact Hp|]. rewrite <- Hrow by exact Hp. exact H.
  Qed.

  (** Missing: embeddings whose lambda matrix is altered by the tolerances (see the
      refutation below). *)
  Theorem C17_continuous_normalised_partial (uniform : bool) (m : pmps K) e f a b d phi (x : tensor R)
      (slim par : bool) (batch n D : nat) (T : xr) :
    (a < b)%R -> shapes_of K uniform m n d D -> pm_emb K m = Some e -> built K e f (mkDom true b (Some a)) ->
    embeds_interval f a b d phi ->
    lossless d (gram_matrix 1000 (trap_weight 1000 (grid a b 1000)) (fun q => phi (grid a b 1000 q))) ->
    pm_bias K m = None -> 0 < n ->
    shp x = [batch; n] -> (forall p t, p < batch -> t < n -> (a <= get x [p; t] <= b)%R) ->
    snd (fwd K uniform m (TFloat (tmap (nofR K) x)) slim par) = Ok T ->
    (** the density, as a function of a sequence of reals ... *)
    exists dens : list R -> R,
      (** ... is what forward returns on every row ... *)
      (forall p, p < batch -> is_log (get T [p]) (dens (map (fun t => get x [p; t]) (seq 0 n)))) /\
      (** ... it is the Born density of the embedded sequence ... *)
      (exists Zn, (0 < Zn)%R /\ forall ys, dens ys = (abs2 (amplitude D (edge_at (pm_edge K m) 0) (edge_at (pm_edge K m) 1)
          (fun t y => vec_site d (pm_core K m) uniform None t (phi y)) ys) / Zn)%R) /\
      (** ... and its iterated trapezoid integral over the 1000-point grid is 1 *)
      iter_trapezoid n 1000 (grid a b 1000) (fun ks => dens (map (grid a b 1000) ks)) = 1%R.
  Proof.
    change 1000 with num_points_default.
    intros Hab Hsh He Hb Hf Hll Hbias Hn Hs Hr E.
    pose proof (continuous_values uniform m e f a b d phi x slim par batch n D Hab Hsh He Hb Hf Hll Hs Hr Hn ltac:(auto)) as H.
    cbv zeta in H. rewrite E, Hbias in H. destruct H as (HZ & _ & H).
    set (Zn := emb_Z K m uniform n d D num_points_default (trap_weight num_points_default (grid a b num_points_default))
       (fun q => phi (grid a b num_points_default q))) in *.
    exists (fun ys => (abs2 (amplitude D (edge_at (pm_edge K m) 0) (edge_at (pm_edge K m) 1)
          (fun t y => vec_site d (pm_core K m) uniform None t (phi y)) ys) / Zn)%R).
    split; [exact H|]. split; [exists Zn; split; [exact HZ|reflexivity]|].
    rewrite iter_trapezoid_sum.
    transitivity (lsum (K := R_ops) (words num_points_default n) (fun ks =>
      (weight_of (trap_weight num_points_default (grid a b num_points_default)) ks *
       abs2 (emb_psi uniform m d D (fun q => phi (grid a b num_points_default q)) ks)) * / Zn)%R).
    { apply (lsum_ext R_cring). intros ks _. unfold Rdiv. rewrite <- Rmult_assoc. f_equal. f_equal. f_equal.
      unfold emb_psi, amplitude. rewrite Hbias. f_equal. f_equal. generalize 0 as s. induction ks as [|k ks IH]; intros s; [reflexivity|].
      cbn [map sites]. rewrite IH. reflexivity. }
    transitivity (emb_sum uniform m n d D num_points_default (trap_weight num_points_default (grid a b num_points_default))
       (fun q => phi (grid a b num_points_default q)) * / Zn)%R.
    { apply (lsum_mul_r R_cring). }
    rewrite <- emb_Z_sum by (left; exact Hbias). apply Rinv_r. lra.
  Qed.

  (** *** C18: rescaling *)
  Fixpoint kpow (c : K) (n : nat) : K := match n with 0 => s1 | S n' => smul c (kpow c n') end.
  Lemma abs2_mul (x y : K) : abs2 (smul x y) = (abs2 x * abs2 y)%R.
  Proof. unfold abs2. rewrite nabs_mul. ring. Qed.
  Lemma amplitude_scale {X} D (v w : vec K) (site site' : nat -> X -> mat K) (c : K) xs :
    (forall t x i j, site' t x i j = smul c (site t x i j)) ->
    amplitude D v w site' xs = smul (kpow c (List.length xs)) (amplitude D v w site xs).
  Proof.
    intros H. unfold amplitude, sandwich.
    assert (G : forall s i j, chain (sites D site' s xs) i j = smul (kpow c (List.length xs)) (chain (sites D site s xs) i j)).
    { induction xs as [|x xs IH]; intros s i j; [cbn [List.length kpow sites chain]; ring|].
      cbn [List.length kpow sites chain]. unfold mmul. rewrite <- (bsum_mul_l K). apply bsum_ext. intros q _.
      rewrite H, IH. ring. }
    rewrite <- (bsum_mul_l K). apply bsum_ext. intros i _. rewrite <- (bsum_mul_l K). apply bsum_ext. intros j _.
    rewrite G. ring.
  Qed.
  Lemma abs2_kpow_pos c n : c <> s0 -> (0 < abs2 (kpow c n))%R.
  Proof.
    intros H. assert (Hc : (0 < abs2 c)%R).
    { destruct (abs2_nonneg K c) as [E|E]; [exact E|]. exfalso. apply H, abs2_zero. auto. }
    induction n as [|n IH]; cbn [kpow].
    - unfold abs2. rewrite <- nof_1, nabs_of, Rabs_R1. lra.
    - rewrite abs2_mul. apply Rmult_lt_0_compat; assumption.
  Qed.
  (** Missing: scale factors that push the lambda matrix below the tolerances. *)
  Theorem C18_rescaling_partial (uniform : bool) (m1 m2 : pmps K) e1 e2 f1 f2 M d phi c mn (ix : tensor Z)
      (slim par : bool) (batch n D : nat) (T1 T2 : xr) :
    c <> s0 -> shapes_of K uniform m1 n d D -> pm_bias K m1 = None ->
    pm_emb K m1 = Some e1 -> built K e1 f1 (mkDom false (INR M) mn) -> embeds_discrete f1 M d phi ->
    m2 = with_emb K m1 e2 -> built K e2 f2 (mkDom false (INR M) mn) ->
    (** f2 = c * f1 *)
    embeds_discrete f2 M d (fun q k => smul c (phi q k)) ->
    lossless d (gram_matrix M (fun _ => 1%R) phi) ->
    lossless d (gram_matrix M (fun _ => 1%R) (fun q k => smul c (phi q k))) ->
    wf_input (K := K) (TLong ix) batch n M -> 0 < n ->
    snd (fwd K uniform m1 (TLong ix) slim par) = Ok T1 -> snd (fwd K uniform m2 (TLong ix) slim par) = Ok T2 ->
    forall b, b < batch -> get T1 [b] = get T2 [b].
  Proof.
    intros Hc Hsh Hbias He1 Hb1 Hf1 -> Hb2 Hf2 Hl1 Hl2 Hx Hn E1 E2 b Hb.
    set (m2 := with_emb K m1 e2) in *.
    pose proof (discrete_values uniform m1 e1 f1 M d phi mn ix slim par batch n D Hsh He1 Hb1 Hf1 Hl1 Hx Hn ltac:(auto)) as H1.
    pose proof (discrete_values uniform m2 e2 f2 M d _ mn ix slim par batch n D Hsh eq_refl Hb2 Hf2 Hl2 Hx Hn ltac:(auto)) as H2.
    cbv zeta in H1, H2. rewrite E1 in H1. rewrite E2 in H2.
    rewrite emb_Z_sum in H1, H2 by (left; exact Hbias). rewrite emb_sum_one in H1, H2.
    destruct H1 as (HZ1 & _ & H1). destruct H2 as (HZ2 & _ & H2). specialize (H1 b Hb). specialize (H2 b Hb).
    apply (is_log_unique _ _ _ H1). 
    assert (Hs : forall xs, List.length xs = n -> abs2 (emb_psi uniform m2 d D (fun q k => smul c (phi q k)) xs) =
                    (abs2 (kpow c n) * abs2 (emb_psi uniform m1 d D phi xs))%R).
    { intros xs Hxs. rewrite <- abs2_mul. f_equal. unfold emb_psi. cbn [m2 with_emb pm_core pm_edge pm_bias]. rewrite <- Hxs.
      apply amplitude_scale. intros t q i j. unfold vec_site. rewrite Hbias. cbn [bias_at].
      transitivity (bsum d (fun k => smul c (smul (phi q k) (entry (pm_core K m1) uniform t k i j)))).
      - transitivity (bsum d (fun k => smul (smul c (phi q k)) (entry (pm_core K m1) uniform t k i j))); [ring|].
        apply bsum_ext. intros; ring.
      - rewrite (bsum_mul_l K). ring. }
    pose proof (abs2_kpow_pos c n Hc) as Hp.
    rewrite Hs in H2 by (unfold row_letters; rewrite map_length; apply seq_length).
    assert (Hsum : lsum (K := R_ops) (words M n) (fun xs => abs2 (emb_psi uniform m2 d D (fun q k => smul c (phi q k)) xs)) =
      (abs2 (kpow c n) * lsum (K := R_ops) (words M n) (fun xs => abs2 (emb_psi uniform m1 d D phi xs)))%R).
    { etransitivity; [|apply (lsum_mul_l R_cring)]. apply (lsum_ext R_cring). intros xs Hxs. apply Hs. apply (words_length M n xs Hxs). }
    rewrite Hsum in H2.
    match goal with H : is_log _ (?a * ?x / (?a * ?y))%R |- _ => replace (a * x / (a * y))%R with (x / y)%R in H end; [exact H2|].
    field. split; lra.
  Qed.

  (** *** C19: one-hot embedding *)
  (** the embedding function t |-> onehot_embed(t, d) (it raises on indices outside
      0..d-1; here it returns an arbitrary tensor for these and for float inputs) *)
  Definition onehot_fun (d : nat) : efun K := fun x =>
    match x with
    | TLong t => match onehot_embed K t d with Ok r => r | Err _ => tconst [] s0 end
    | TFloat v => tconst [] s0
    end.
  Theorem C19_onehot_components (t : tensor Z) (d : nat) :
    (forall i, valid (shp t) i -> (0 <= get t i < Z.of_nat d)%Z) ->
    exists r, onehot_embed K t d = Ok r /\ shp r = shp t ++ [d] /\
      forall i k, valid (shp t) i -> k < d ->
        get r (i ++ [k]) = if (get t i =? Z.of_nat k)%Z then s1 else s0.
  Proof.
    intros H. unfold onehot_embed.
    assert (E : tall (fun z => (0 <=? z) && (z <? Z.of_nat d))%Z t = true).
    { apply tall_spec. intros i Hi. specialize (H i Hi). apply andb_true_iff. split; [apply Z.leb_le|apply Z.ltb_lt]; lia. }
    rewrite E. eexists. split; [reflexivity|]. split; [reflexivity|]. intros i k Hi Hk. cbn [get].
    rewrite (droplast_app i [k] 1 eq_refl), last_last. reflexivity.
  Qed.
  (** an index outside the alphabet raises *)
  Theorem C19_onehot_rejects (t : tensor Z) (d : nat) i :
    valid (shp t) i -> ~ (0 <= get t i < Z.of_nat d)%Z -> onehot_embed K t d = Err RuntimeError.
  Proof.
    intros Hi H. unfold onehot_embed.
    rewrite (tall_false _ t i Hi); [reflexivity|].
    destruct (0 <=? get t i)%Z eqn:E1; [|reflexivity]. apply Z.leb_le in E1. cbn. apply Z.ltb_ge. lia.
  Qed.
  Lemma onehot_embeds d : embeds_discrete (onehot_fun d) d d delta.
  Proof.
    intros ix H. destruct (C19_onehot_components ix d H) as (r & E & Hs & Hg).
    unfold onehot_fun. rewrite E. split; [exact Hs|]. intros i k Hi Hk. rewrite Hg by assumption.
    specialize (H i Hi). unfold delta.
    destruct (Z.eqb_spec (get ix i) (Z.of_nat k)) as [->|Hne]; [rewrite Nat2Z.id, Nat.eqb_refl; reflexivity|].
    destruct (Nat.eqb_spec (Z.to_nat (get ix i)) k) as [<-|]; [|reflexivity]. exfalso. apply Hne. lia.
  Qed.
  Lemma gram_delta d k k' : k < d -> k' < d -> gram_matrix (K := K) d (fun _ => 1%R) delta k k' = delta k k'.
  Proof. intros Hk Hk'. symmetry. apply (lamb_sum_delta K d k k' Hk Hk'). Qed.
  Lemma gram_delta_lossless d : lossless d (gram_matrix (K := K) d (fun _ => 1%R) delta).
  Proof.
    right. split.
    - intros k k' Hk Hk' Hne. rewrite gram_delta by assumption. unfold delta. destruct (Nat.eqb_spec k k'); [contradiction|reflexivity].
    - left. exists s1. intros k Hk. rewrite gram_delta by assumption. unfold delta. rewrite Nat.eqb_refl. reflexivity.
  Qed.
  Theorem C19_lambda_is_one (d : nat) mn : 0 < d ->
    exists e l, fixed_embedding K (onehot_fun d) (mkDom false (INR d) mn) = Ok e /\ es_dim K e = Some d /\
      es_lamb K e = Some l /\ shp l = [] /\ get l [] = Fin s1.
  Proof.
    intros Hd.
    destruct (raw_lambda_discrete K (onehot_fun d) d d delta mn num_points_default (onehot_embeds d)) as (raw & Er & Hrs & Hrg).
    exists (mkEmb K false (onehot_fun d) (mkDom false (INR d) mn) (Some (simplify_lamb K raw)) (Some d)), (simplify_lamb K raw).
    unfold fixed_embedding. rewrite (make_lambda_ok K _ _ _ raw d Er Hrs). cbn [rbind fst snd].
    split; [reflexivity|]. split; [reflexivity|]. split; [reflexivity|].
    assert (Hg : forall k k', k < d -> k' < d -> get raw [k; k'] = delta k k').
    { intros. rewrite Hrg by assumption. apply gram_delta; assumption. }
    assert (Hdg : shp (diag_of K raw) = [d]) by (unfold diag_of; cbn [shp]; rewrite Hrs; reflexivity).
    assert (Hgd : forall k, k < d -> get (diag_of K raw) [k] = s1).
    { intros k Hk. cbn. rewrite Hg by assumption. unfold delta. rewrite Nat.eqb_refl. reflexivity. }
    assert (Hdm : shp (diag_mat K (diag_of K raw)) = [d; d]) by (unfold diag_mat; cbn [shp]; rewrite Hdg; reflexivity).
    unfold simplify_lamb.
    assert (E1 : allclose K (diag_mat K (diag_of K raw)) raw = true).
    { apply (allclose_same K _ _ [d; d] Hdm Hrs). intros i Hi.
      apply (valid_app2_inv []) in Hi as (b0 & p & q & -> & Hb0 & Hp & Hq). apply valid_nil in Hb0. subst b0. cbn [app].
      rewrite Hg by assumption. cbn [diag_mat get nth]. unfold delta.
      destruct (Nat.eqb_spec p q) as [<-|]; [rewrite Hgd by exact Hp|]; apply within_refl. }
    rewrite E1.
    assert (Hmean : mean_of K (diag_of K raw) = Fin s1).
    { unfold mean_of. rewrite Hdg. cbn [hd xdivr].
      assert (Hnz : INR d <> 0%R) by (apply not_0_INR; lia).
      destruct (Req_EM_T (INR d) 0) as [E|_]; [contradiction|]. f_equal.
      rewrite (bsum_ext d _ (fun _ => nofR K 1)) by (intros k Hk; rewrite Hgd, nof_1 by exact Hk; reflexivity).
      rewrite <- nofR_sum.
      replace (bsum (S := R_ops) d (fun _ => 1%R)) with (INR d).
      - apply nofR_inv. exact Hnz.
      - clear. induction d as [|d IH]; [reflexivity|]. rewrite S_INR, IH. reflexivity. }
    rewrite Hmean.
    assert (E2 : allclose K (tconst [] s1) (diag_of K raw) = true).
    { apply (allclose_scalar K s1 _ d Hdg). intros k Hk. rewrite Hgd by exact Hk. apply within_refl. }
    rewrite E2. split; reflexivity.
  Qed.
  Lemma emb_psi_delta uniform m d D xs : (forall x, In x xs -> x < d) ->
    emb_psi uniform m d D delta xs =
    amplitude D (edge_at (pm_edge K m) 0) (edge_at (pm_edge K m) 1) (letter_site (pm_core K m) uniform (pm_bias K m)) xs.
  Proof.
    intros H. apply amplitude_ext. intros t q i j _ Hq _ _. unfold vec_site, letter_site. f_equal.
    apply (bsum_delta_l K d q (fun k => entry (pm_core K m) uniform t k i j) (H q Hq)).
  Qed.
  (** the model with the one-hot embedding and the model without embedding *)
  Theorem C19_same_log_probs (uniform : bool) (m : pmps K) e mn (ix : tensor Z) (slim par slim' par' : bool) (batch n d D : nat) :
    shapes_of K uniform m n d D -> pm_emb K m = None ->
    fixed_embedding K (onehot_fun d) (mkDom false (INR d) mn) = Ok e ->
    wf_input (K := K) (TLong ix) batch n d -> 0 < n ->
    (slim = true \/ slim' = true -> pm_bias K m = None) ->
    (** equal values whenever both calls return ... *)
    (forall T U, snd (fwd K uniform m (TLong ix) slim par) = Ok T ->
       snd (fwd K uniform (with_emb K m e) (TLong ix) slim' par') = Ok U -> forall b, b < batch -> get T [b] = get U [b]) /\
    (** ... and both do return when all amplitudes of a nonempty batch are nonzero *)
    (0 < batch -> (forall b, b < batch -> psi K uniform m n d D (TLong ix) b <> s0) ->
       exists T U, snd (fwd K uniform m (TLong ix) slim par) = Ok T /\
         snd (fwd K uniform (with_emb K m e) (TLong ix) slim' par') = Ok U).
  Proof.
    intros Hsh He0 Hfe Hx Hn Hsl. set (m' := with_emb K m e).
    destruct (forward_ok K uniform m (TLong ix) slim par batch n d D Hsh He0 Hx Hn ltac:(auto)) as [H _].
    pose proof (discrete_values uniform m' e (onehot_fun d) d d delta mn ix slim' par' batch n D Hsh eq_refl (or_introl Hfe)
      (onehot_embeds d) (gram_delta_lossless d) Hx Hn ltac:(intros Hs; apply Hsl; right; exact Hs)) as H'.
    cbv zeta in H, H'.
    assert (HZ : emb_Z K m' uniform n d D d (fun _ => 1%R) delta = model_Z K m uniform n d D).
    { unfold emb_Z. fold (Zw K D (edge_at (pm_edge K m') 0) (edge_at (pm_edge K m') 1) (fun _ => 1%R) d (norm_site K d m' uniform delta) n). rewrite (Zw_one K). unfold model_Z, partition_fn. apply (lsum_ext R_cring). intros xs Hxs. f_equal.
      apply amplitude_ext. intros t q i j _ Hq _ _. unfold norm_site. cbn [m' with_emb pm_core pm_bias].
      apply (bsum_delta_l K d q (fun k => letter_site (pm_core K m) uniform (pm_bias K m) t k i j)).
      apply (words_letters d n xs Hxs q Hq). }
    rewrite HZ in H'.
    assert (Hamp : forall b, b < batch -> emb_psi uniform m' d D delta (row_letters ix n b) = psi K uniform m n d D (TLong ix) b).
    { intros b Hb. apply emb_psi_delta. apply (words_letters d n). apply (row_in_words K ix batch n d b Hx Hb). }
    split.
    - intros T U ET EU b Hb. rewrite ET in H. rewrite EU in H'. destruct H as (_ & _ & H). destruct H' as (_ & _ & H').
      specialize (H b Hb). specialize (H' b Hb). rewrite Hamp in H' by exact Hb. apply (is_log_unique _ _ _ H H').
    - intros Hbt Hnz. pose proof (psi_Z_pos K uniform m ix batch n d D 0 Hx Hbt (Hnz 0 Hbt)) as HZp.
      change (0 < model_Z K m uniform n d D)%R in HZp.
      destruct (snd (fwd K uniform m (TLong ix) slim par)) as [T|er].
      2:{ exfalso. destruct H as [_ [H|(b & Hb & H)]]; [lra|apply (Hnz b Hb H)]. }
      destruct (snd (fwd K uniform m' (TLong ix) slim' par')) as [U|er].
      2:{ exfalso. destruct H' as [_ [H'|(b & Hb & H')]]; [lra|]. rewrite Hamp in H' by exact Hb. apply (Hnz b Hb H'). }
      exists T, U. split; reflexivity.
  Qed.
End P.
