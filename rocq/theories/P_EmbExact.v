(** * P_EmbExact: C16 and C17 for EVERY embedding (no losslessness hypothesis): exactly what a model
      with an embedding is normalised by, and exactly what its probabilities sum to. *)
From Coq Require Import Ring_theory Ring Reals Lra Permutation.
From Verif Require Import Base Scalars Tensor Utils2 MpsBase Embeddings ProbMps Spec MatSpec ModelSpec EmbSpec
  LinAlg Utils2Proofs EinsumProofs MatseqProofs SlimProofs LogNorm ProbProofs EmbProofs P_Prob P_Emb P_Emb2.

Section P.
  Variable K : numfield.
  Add Ring KrP3 : (rth K).
  Notation xr := (tensor xreal).
  Notation ofR := (nofR K).

  (** ** Specification of the weights *)
  (** the diagonal of the Gram matrix: how strongly component k is used *)
  Definition component_weight (M : nat) (wt : nat -> R) (phi : nat -> nat -> K) (k : nat) : R :=
    bsum (S := R_ops) M (fun q => (wt q * abs2 (phi q k))%R).
  (** arithmetic mean of d numbers *)
  Definition mean (d : nat) (g : nat -> R) : R := (bsum (S := R_ops) d g / INR d)%R.
  (** no off-diagonal entry of the d x d matrix L is visible above 1e-8 *)
  Definition invisible (d : nat) (L : mat K) : Prop :=
    forall k k', k < d -> k' < d -> k <> k' -> within_tol s0 (L k k').
  (** the weights that are used instead: all equal to their mean if that is within tolerance,
      the component weights otherwise *)
  Definition used_weights (d : nat) (g lam : nat -> R) : Prop :=
    ((forall k, k < d -> within_tol (K := K) (ofR (mean d g)) (ofR (g k))) /\ forall k, lam k = mean d g) \/
    ((exists k, k < d /\ ~ within_tol (K := K) (ofR (mean d g)) (ofR (g k))) /\ forall k, lam k = g k).
  (** sum over all words in the d letters of the core, letter k weighted by lam k *)
  Definition letter_sum (uniform : bool) (m : pmps K) (n d D : nat) (lam : nat -> R) : R :=
    lsum (K := R_ops) (words d n) (fun w => (weight_of lam w *
      abs2 (amplitude D (edge_at (pm_edge K m) 0) (edge_at (pm_edge K m) 1)
              (letter_site (pm_core K m) uniform (pm_bias K m)) w))%R).

  (** ** Proofs *)
  Lemma gram_diag M wt phi k : gram_matrix M wt phi k k = ofR (component_weight M wt phi k).
  Proof.
    unfold gram_matrix, component_weight. rewrite nofR_sum. apply bsum_ext. intros q _.
    rewrite abs2_nofR. symmetry. apply nof_mul.
  Qed.
  Lemma component_weight_nonneg M wt phi k : (forall q, q < M -> (0 <= wt q)%R) -> (0 <= component_weight M wt phi k)%R.
  Proof.
    intros H. unfold component_weight. induction M as [|M IH]; [cbn; lra|]. cbn [bsum sadd R_ops].
    apply Rplus_le_le_0_compat; [apply IH; intros q Hq; apply H; lia|]. apply Rmult_le_pos; [apply H; lia|apply abs2_nonneg].
  Qed.
  Lemma mean_nonneg d g : 0 < d -> (forall k, k < d -> (0 <= g k)%R) -> (0 <= mean d g)%R.
  Proof.
    intros Hd H. unfold mean. apply Rmult_le_pos; [|left; apply Rinv_0_lt_compat, lt_0_INR, Hd].
    clear Hd. induction d as [|d IH]; [cbn; lra|]. cbn [bsum sadd R_ops].
    apply Rplus_le_le_0_compat; [apply IH; intros k Hk; apply H; lia|apply H; lia].
  Qed.
  Lemma lamb_sum_diag (lam : nat -> R) d : lamb_sum K (fun k k' => smul (ofR (lam k)) (delta k k')) d d lam delta.
  Proof.
    intros k k' Hk Hk'.
    transitivity (bsum (S := K) d (fun q => smul (delta q k) (smul (ofR (lam q)) (delta q k')))).
    - rewrite (bsum_ext d _ (fun q => smul (delta k q) (smul (ofR (lam q)) (delta q k')))).
      + symmetry. apply (bsum_delta_l K d k (fun q => smul (ofR (lam q)) (delta q k')) Hk).
      + intros q _. unfold delta. rewrite (Nat.eqb_sym q k). reflexivity.
    - apply bsum_ext. intros q _. unfold delta. destruct (q =? k'); [|rewrite nconj_0; ring].
      rewrite <- nof_1, nconj_of, nof_1. ring.
  Qed.
  Lemma all_or_some d (c : nat -> bool) : (forall k, k < d -> c k = true) \/ (exists k, k < d /\ c k = false).
  Proof.
    induction d as [|d [H|(k & Hk & H)]]; [left; lia| |right; exists k; split; [lia|exact H]].
    destruct (c d) eqn:E; [left|right; exists d; split; [lia|exact E]].
    intros k Hk. destruct (Nat.eq_dec k d) as [->|]; [exact E|apply H; lia].
  Qed.
  (** what the simplified matrix stands for, for every Gram matrix *)
  Lemma simplify_exact (raw : tensor K) d M wt phi :
    0 < d -> shp raw = [d; d] ->
    (forall k k', k < d -> k' < d -> get raw [k; k'] = gram_matrix M wt phi k k') ->
    (~ invisible d (gram_matrix M wt phi) /\ lamb_ok K (Some (simplify_lamb K raw)) d (gram_matrix M wt phi)) \/
    (invisible d (gram_matrix M wt phi) /\ exists lam, used_weights d (component_weight M wt phi) lam /\
       lamb_ok K (Some (simplify_lamb K raw)) d (fun k k' => smul (ofR (lam k)) (delta k k'))).
  Proof.
    intros Hd Hs HL. set (L := gram_matrix M wt phi) in *. set (g := component_weight M wt phi).
    unfold simplify_lamb.
    assert (Hdg : shp (diag_of K raw) = [d]) by (unfold diag_of; cbn [shp]; rewrite Hs; reflexivity).
    assert (Hgd : forall k, k < d -> get (diag_of K raw) [k] = ofR (g k)).
    { intros k Hk. cbn. rewrite HL by exact Hk. apply gram_diag. }
    assert (Hdm : shp (diag_mat K (diag_of K raw)) = [d; d]) by (unfold diag_mat; cbn [shp]; rewrite Hdg; reflexivity).
    pose proof (allclose_same K _ _ [d; d] Hdm Hs) as Hac.
    assert (Hnz : INR d <> 0%R) by (apply not_0_INR; lia).
    assert (Hmean : mean_of K (diag_of K raw) = Fin (ofR (mean d g))).
    { unfold mean_of. rewrite Hdg. cbn [hd xdivr]. destruct (Req_EM_T (INR d) 0) as [E|_]; [contradiction|].
      f_equal. unfold mean, Rdiv. rewrite nof_mul, nofR_sum. f_equal. apply bsum_ext. intros k Hk. apply Hgd, Hk. }
    destruct (allclose K (diag_mat K (diag_of K raw)) raw) eqn:E1.
    - destruct Hac as [Hac _]. specialize (Hac eq_refl). right. split.
      { intros k k' Hk Hk' Hne. specialize (Hac [k; k'] ltac:(apply valid_2; split; assumption)).
        cbn [diag_mat get nth] in Hac. destruct (Nat.eqb_spec k k'); [contradiction|]. rewrite HL in Hac by assumption. exact Hac. }
      rewrite Hmean. pose proof (allclose_scalar K (ofR (mean d g)) _ d Hdg) as Has.
      destruct (allclose K (tconst [] (ofR (mean d g))) (diag_of K raw)) eqn:E2.
      + destruct Has as [Has _]. specialize (Has eq_refl). exists (fun _ => mean d g). split.
        * left. split; [|reflexivity]. intros k Hk. rewrite <- Hgd by exact Hk. apply Has, Hk.
        * cbn [lamb_ok]. left. exists (ofR (mean d g)). split; [reflexivity|]. split; reflexivity.
      + exists g. split.
        * right. split; [|reflexivity].
          destruct (all_or_some d (fun k => close K (ofR (mean d g)) (ofR (g k)))) as [H|(k & Hk & H)].
          -- exfalso. assert (E3 : false = true); [|discriminate]. apply Has. intros k Hk.
             rewrite Hgd by exact Hk. apply close_spec, H, Hk.
          -- exists k. split; [exact Hk|]. intros Hw. apply close_spec in Hw. rewrite Hw in H. discriminate.
        * cbn [lamb_ok]. right. left. exists (fun k => ofR (g k)). split; [exact Hdg|]. split.
          -- intros k Hk. cbn [tmap get]. rewrite Hgd by exact Hk. reflexivity.
          -- reflexivity.
    - left. split.
      + intros Hi. assert (E3 : false = true); [|discriminate]. apply Hac. intros i Hv.
        apply (valid_app2_inv []) in Hv as (b0 & p & q & -> & Hb0 & Hp & Hq). apply valid_nil in Hb0. subst b0. cbn [app].
        rewrite HL by assumption. cbn [diag_mat get nth]. destruct (Nat.eqb_spec p q) as [<-|Hne].
        * rewrite Hgd by exact Hp. unfold L. rewrite gram_diag. apply within_refl.
        * apply Hi; assumption.
      + cbn [lamb_ok]. right. right. split; [exact Hs|]. intros k k' Hk Hk'. cbn [tmap get]. rewrite HL by assumption. reflexivity.
  Qed.

  Lemma used_nonneg d g lam : 0 < d -> used_weights d g lam -> (forall k, k < d -> (0 <= g k)%R) -> forall k, k < d -> (0 <= lam k)%R.
  Proof.
    intros Hd [[_ H]|[_ H]] Hg k Hk; rewrite H; [apply mean_nonneg; assumption|apply Hg, Hk].
  Qed.
  Lemma emb_Z_delta uniform m n d D lam : emb_Z K m uniform n d D d lam delta = letter_sum uniform m n d D lam.
  Proof.
    unfold emb_Z, letter_sum, weighted_partition_fn. apply (lsum_ext R_cring). intros xs Hx. f_equal. f_equal.
    apply amplitude_ext. intros t q i j _ Hq _ _. unfold norm_site.
    apply (bsum_delta_l K d q (fun k => letter_site (pm_core K m) uniform (pm_bias K m) t k i j)).
    apply (words_letters d n xs Hx q Hq).
  Qed.
  (** outcome of one forward call with normalisation Zn *)
  Definition outcome (r : res xr) (batch : nat) (amp : nat -> K) (Zn : R) : Prop :=
    match r with
    | Ok T => (0 < Zn)%R /\ shp T = [batch] /\ forall b, b < batch -> is_log (get T [b]) (abs2 (amp b) / Zn)
    | Err er => er = AssertionError /\ (Zn = 0%R \/ exists b, b < batch /\ amp b = s0)
    end.
  (** the number a model with embedding vectors phi is normalised by *)
  Definition normaliser (uniform : bool) (m : pmps K) (n d D M : nat) wt phi (Zn : R) : Prop :=
    (~ invisible d (gram_matrix M wt phi) /\ Zn = emb_Z K m uniform n d D M wt phi) \/
    (invisible d (gram_matrix M wt phi) /\
     exists lam, used_weights d (component_weight M wt phi) lam /\ Zn = letter_sum uniform m n d D lam).

  (** exactly when a call returns: the normaliser is positive and no row is lost *)
  Definition raises_exactly (r : res xr) (batch : nat) (Zn : R) (lost : nat -> Prop) : Prop :=
    ((0 < Zn)%R -> (forall b, b < batch -> ~ lost b) -> exists T, r = Ok T) /\
    ((exists b, b < batch /\ lost b) -> r = Err AssertionError) /\
    (Zn = 0%R -> r = Err AssertionError).
  Lemma emb_exact_full (uniform : bool) (m : pmps K) (e : embedding K) f dom (x : tin K) raw
      (slim par : bool) (batch n d D M : nat) wt phi :
    shapes_of K uniform m n d D -> pm_emb K m = Some e -> built K e f dom ->
    raw_lambda K num_points_default f dom = Ok raw -> shp raw = [d; d] ->
    (forall k k', k < d -> k' < d -> get raw [k; k'] = gram_matrix M wt phi k k') ->
    (forall q, q < M -> (0 <= wt q)%R) ->
    (exists r, tin_shp x = batch :: n :: r) -> shp (f x) = [batch; n; d] -> 0 < n ->
    (slim = true -> pm_bias K m = None) ->
    exists Zn, normaliser uniform m n d D M wt phi Zn /\
      outcome (snd (fwd K uniform m x slim par)) batch
        (row_amp (pm_core K m) (pm_edge K m) (pm_bias K m) uniform n d D (TFloat (f x))) Zn /\
      raises_exactly (snd (fwd K uniform m x slim par)) batch Zn
        (row_lost (pm_core K m) (pm_edge K m) (pm_bias K m) uniform n d D (TFloat (f x)) slim par).
  Proof.
    intros Hsh He Hb Er Hrs Hrg Hw Hx Hf Hn Hsl.
    destruct (shapes_get K uniform m n d D Hsh) as (Hd & HD & _).
    destruct (emb_forward_ok K e f _ x raw d Hb Er Hrs) as (e' & Ee & Hl & _).
    destruct (simplify_exact raw d M wt phi Hd Hrs Hrg) as [[Hv Hlo]|[Hv (lam & Hlam & Hlo)]].
    - exists (emb_Z K m uniform n d D M wt phi). split; [left; split; [exact Hv|reflexivity]|].
      exact (forward_emb_full K uniform m e e' x (f x) _ _ slim par batch n d D M wt phi Hsh He Ee Hl Hlo
        (lamb_sum_gram K M wt phi d) Hw Hx Hf Hn Hsl).
    - exists (letter_sum uniform m n d D lam). split; [right; split; [exact Hv|]; exists lam; split; [exact Hlam|reflexivity]|].
      rewrite <- emb_Z_delta.
      exact (forward_emb_full K uniform m e e' x (f x) _ _ slim par batch n d D d lam delta Hsh He Ee Hl Hlo
        (lamb_sum_diag lam d) (used_nonneg d _ lam Hd Hlam (fun k _ => component_weight_nonneg M wt phi k Hw)) Hx Hf Hn Hsl).
  Qed.

  Lemma emb_exact (uniform : bool) (m : pmps K) (e : embedding K) f dom (x : tin K) raw
      (slim par : bool) (batch n d D M : nat) wt phi :
    shapes_of K uniform m n d D -> pm_emb K m = Some e -> built K e f dom ->
    raw_lambda K num_points_default f dom = Ok raw -> shp raw = [d; d] ->
    (forall k k', k < d -> k' < d -> get raw [k; k'] = gram_matrix M wt phi k k') ->
    (forall q, q < M -> (0 <= wt q)%R) ->
    (exists r, tin_shp x = batch :: n :: r) -> shp (f x) = [batch; n; d] -> 0 < n ->
    (slim = true -> pm_bias K m = None) ->
    exists Zn, normaliser uniform m n d D M wt phi Zn /\
      outcome (snd (fwd K uniform m x slim par)) batch
        (row_amp (pm_core K m) (pm_edge K m) (pm_bias K m) uniform n d D (TFloat (f x))) Zn.
  Proof.
    intros Hsh He Hb Er Hrs Hrg Hw Hx Hf Hn Hsl.
    destruct (emb_exact_full uniform m e f dom x raw slim par batch n d D M wt phi Hsh He Hb Er Hrs Hrg Hw Hx Hf Hn Hsl)
      as (Zn & H1 & H2 & _). eauto.
  Qed.

  Lemma discrete_exact (uniform : bool) (m : pmps K) e f M d phi mn (ix : tensor Z) (slim par : bool) (batch n D : nat) :
    shapes_of K uniform m n d D -> pm_emb K m = Some e -> built K e f (mkDom false (INR M) mn) ->
    embeds_discrete f M d phi ->
    wf_input (K := K) (TLong ix) batch n M -> 0 < n -> (slim = true -> pm_bias K m = None) ->
    exists Zn, normaliser uniform m n d D M (fun _ => 1%R) phi Zn /\
      outcome (snd (fwd K uniform m (TLong ix) slim par)) batch
        (fun b => emb_psi K uniform m d D phi (row_letters ix n b)) Zn.
  Proof.
    intros Hsh He Hb Hf Hx Hn Hsl.
    destruct (raw_lambda_discrete K f M d phi mn num_points_default Hf) as (raw & Er & Hrs & Hrg).
    destruct Hx as [Hs Hr].
    destruct (Hf ix) as [Hfs Hfg].
    { intros i Hi. rewrite Hs in Hi. apply (valid_app2_inv []) in Hi as (b0 & p & q & -> & Hb0 & Hp & Hq).
      apply valid_nil in Hb0. subst b0. apply Hr; assumption. }
    rewrite Hs in Hfs. cbn [app] in Hfs.
    assert (Hrow : forall b, b < batch ->
      row_amp (pm_core K m) (pm_edge K m) (pm_bias K m) uniform n d D (TFloat (f (TLong ix))) b = emb_psi K uniform m d D phi (row_letters ix n b)).
    { intros b Hb'. apply (row_amp_embedded K 0).
      - unfold row_letters. rewrite map_length. apply seq_length.
      - intros t k Ht Hk. specialize (Hfg [b; t] k). cbn [app] in Hfg. rewrite Hfg; [|rewrite Hs; apply valid_2; split; assumption|exact Hk].
        f_equal. unfold row_letters.
        rewrite (nth_indep _ 0 (Z.to_nat (get ix [b; 0]))) by (rewrite map_length, seq_length; exact Ht).
        rewrite (map_nth (fun t => Z.to_nat (get ix [b; t]))), seq_nth by exact Ht. reflexivity. }
    destruct (emb_exact uniform m e f _ (TLong ix) raw slim par batch n d D M (fun _ => 1%R) phi Hsh He Hb Er Hrs Hrg
      ltac:(intros; lra) ltac:(exists []; exact Hs) Hfs Hn Hsl) as (Zn & HZ & H).
    exists Zn. split; [exact HZ|]. unfold outcome in *.
    destruct (snd (fwd K uniform m (TLong ix) slim par)) as [T|er].
    - destruct H as (H0 & HT & H). split; [exact H0|]. split; [exact HT|]. intros b Hb'. rewrite <- Hrow by exact Hb'. apply H, Hb'.
    - destruct H as [-> [H|(b & Hb' & H)]]; split; try reflexivity; [left; exact H|].
      right. exists b. split; [exact Hb'|]. rewrite <- Hrow by exact Hb'. exact H.
  Qed.

  (** *** C16, every embedding over a discrete domain and every bias-free model: what forward
      returns, and what the probabilities of all M^n sequences sum to.
      - If some off-diagonal entry of the Gram matrix is visible, they sum to 1.
      - Otherwise they sum to the ratio of the true norm to the norm in which the letters of
        the core are weighted by the (possibly averaged) diagonal of the Gram matrix. *)
  Theorem C16_exact_total (uniform : bool) (m : pmps K) e f M d phi mn (ix : tensor Z) (slim par : bool) (batch n D : nat) (T : xr) :
    shapes_of K uniform m n d D -> pm_emb K m = Some e -> built K e f (mkDom false (INR M) mn) ->
    embeds_discrete f M d phi -> pm_bias K m = None ->
    wf_input (K := K) (TLong ix) batch n M -> 0 < n ->
    snd (fwd K uniform m (TLong ix) slim par) = Ok T ->
    let total := bsum (S := R_ops) batch (fun b => prob_of (get T [b])) in
    let norm := emb_sum K uniform m n d D M (fun _ => 1%R) phi in
    let every_sequence_once := Permutation (map (row_letters ix n) (seq 0 batch)) (words M n) in
    (~ invisible d (gram_matrix M (fun _ => 1%R) phi) ->
       (forall b, b < batch -> is_log (get T [b]) (abs2 (emb_psi K uniform m d D phi (row_letters ix n b)) / norm)) /\
       (every_sequence_once -> total = 1%R)) /\
    (invisible d (gram_matrix M (fun _ => 1%R) phi) ->
       exists lam, used_weights d (component_weight M (fun _ => 1%R) phi) lam /\ (0 < letter_sum uniform m n d D lam)%R /\
       (forall b, b < batch -> is_log (get T [b])
          (abs2 (emb_psi K uniform m d D phi (row_letters ix n b)) / letter_sum uniform m n d D lam)) /\
       (every_sequence_once -> total = (norm / letter_sum uniform m n d D lam)%R)).
  Proof.
    intros Hsh He Hb Hf Hbias Hx Hn E total norm eso.
    destruct (discrete_exact uniform m e f M d phi mn ix slim par batch n D Hsh He Hb Hf Hx Hn ltac:(auto)) as (Zn & HZ & H).
    unfold outcome in H. rewrite E in H. destruct H as (Hp & _ & H).
    assert (Htot : eso -> total = (norm / Zn)%R).
    { intros Hperm. unfold total.
      rewrite (probs_sum batch n M ix T _ (fun xs => abs2 (emb_psi K uniform m d D phi xs)) Hp H Hperm).
      unfold norm. rewrite emb_sum_one. reflexivity. }
    split; intros Hv; destruct HZ as [[Hv' HZ]|[Hv' (lam & Hlam & HZ)]]; try contradiction.
    - rewrite emb_Z_sum in HZ by (left; exact Hbias). fold norm in HZ. rewrite HZ in *. split; [exact H|].
      intros Hperm. rewrite (Htot Hperm). apply Rinv_r. lra.
    - exists lam. rewrite HZ in *. auto.
  Qed.

  (** *** C13, every embedding and every (also biased) model: the probabilities of all M^n
      sequences sum to (sum of the squared amplitudes) / (what the model is normalised by). *)
  Theorem C13_exact_total (uniform : bool) (m : pmps K) e f M d phi mn (ix : tensor Z) (par : bool) (batch n D : nat) (T : xr) :
    shapes_of K uniform m n d D -> pm_emb K m = Some e -> built K e f (mkDom false (INR M) mn) ->
    embeds_discrete f M d phi ->
    wf_input (K := K) (TLong ix) batch n M -> 0 < n ->
    snd (fwd K uniform m (TLong ix) false par) = Ok T ->
    Permutation (map (row_letters ix n) (seq 0 batch)) (words M n) ->
    exists Zn, (0 < Zn)%R /\
      bsum (S := R_ops) batch (fun b => prob_of (get T [b])) =
        (lsum (K := R_ops) (words M n) (fun xs => abs2 (emb_psi K uniform m d D phi xs)) / Zn)%R /\
      ((~ invisible d (gram_matrix M (fun _ => 1%R) phi) /\
        (** the bias is weighted by the component sum of each embedding vector *)
        Zn = lsum (K := R_ops) (words M n) (fun xs => abs2 (amplitude D (edge_at (pm_edge K m) 0) (edge_at (pm_edge K m) 1)
          (fun t q i j => bsum d (fun k => smul (phi q k) (letter_site (pm_core K m) uniform (pm_bias K m) t k i j))) xs))) \/
       (invisible d (gram_matrix M (fun _ => 1%R) phi) /\
        exists lam, used_weights d (component_weight M (fun _ => 1%R) phi) lam /\ Zn = letter_sum uniform m n d D lam)).
  Proof.
    intros Hsh He Hb Hf Hx Hn E Hperm.
    destruct (discrete_exact uniform m e f M d phi mn ix false par batch n D Hsh He Hb Hf Hx Hn ltac:(discriminate)) as (Zn & HZ & H).
    unfold outcome in H. rewrite E in H. destruct H as (Hp & _ & H). exists Zn. split; [exact Hp|]. split.
    { exact (probs_sum batch n M ix T _ (fun xs => abs2 (emb_psi K uniform m d D phi xs)) Hp H Hperm). }
    destruct HZ as [[Hv HZ]|HZ]; [left; split; [exact Hv|]|right; exact HZ].
    rewrite HZ. unfold emb_Z, weighted_partition_fn. apply (lsum_ext R_cring). intros xs _. rewrite weight_one. apply Rmult_1_l.
  Qed.

  (** *** C17, every embedding over an interval and every bias-free model *)
  Theorem C17_exact_total (uniform : bool) (m : pmps K) e f a b d phi (x : tensor R)
      (slim par : bool) (batch n D : nat) (T : xr) :
    (a < b)%R -> shapes_of K uniform m n d D -> pm_emb K m = Some e -> built K e f (mkDom true b (Some a)) ->
    embeds_interval f a b d phi ->
    pm_bias K m = None -> 0 < n ->
    shp x = [batch; n] -> (forall p t, p < batch -> t < n -> (a <= get x [p; t] <= b)%R) ->
    snd (fwd K uniform m (TFloat (tmap (nofR K) x)) slim par) = Ok T ->
    let wt := trap_weight 1000 (grid a b 1000) in
    let pts := fun q => phi (grid a b 1000 q) in
    let born := fun ys => abs2 (amplitude D (edge_at (pm_edge K m) 0) (edge_at (pm_edge K m) 1)
                          (fun t y => vec_site d (pm_core K m) uniform None t (phi y)) ys) in
    let integral := fun g : list R -> R => iter_trapezoid n 1000 (grid a b 1000) (fun ks => g (map (grid a b 1000) ks)) in
    (** forward returns the Born density divided by some Zn > 0, whose integral is: *)
    exists Zn, (0 < Zn)%R /\
      (forall p, p < batch -> is_log (get T [p]) (born (map (fun t => get x [p; t]) (seq 0 n)) / Zn)) /\
      (** 1, if an off-diagonal entry of the Gram matrix is visible; else integral(born)/Zn with
          Zn the sum over words weighted by the (possibly averaged) diagonal *)
      ((~ invisible d (gram_matrix 1000 wt pts) /\ integral (fun ys => born ys / Zn)%R = 1%R) \/
       (invisible d (gram_matrix 1000 wt pts) /\
        integral (fun ys => born ys / Zn)%R = (integral born / Zn)%R /\
        exists lam, used_weights d (component_weight 1000 wt pts) lam /\ Zn = letter_sum uniform m n d D lam)).
  Proof.
    change 1000 with num_points_default.
    intros Hab Hsh He Hb Hf Hbias Hn Hs Hr E wt pts born integral.
    assert (HN : 1 < num_points_default) by (apply Nat.ltb_lt; reflexivity).
    destruct (raw_lambda_interval K f a b d phi num_points_default Hab HN Hf) as (raw & Er & Hrs & Hrg).
    destruct (Hf x) as [Hfs Hfg].
    { intros i Hi. rewrite Hs in Hi. apply (valid_app2_inv []) in Hi as (b0 & p & q & -> & Hb0 & Hp & Hq).
      apply valid_nil in Hb0. subst b0. apply Hr; assumption. }
    rewrite Hs in Hfs. cbn [app] in Hfs.
    assert (Hrow : forall p, p < batch -> abs2 (row_amp (pm_core K m) (pm_edge K m) (pm_bias K m) uniform n d D
        (TFloat (f (TFloat (tmap (nofR K) x)))) p) = born (map (fun t => get x [p; t]) (seq 0 n))).
    { intros p Hp. unfold born. rewrite <- Hbias. f_equal. apply (row_amp_embedded K 0%R).
      - rewrite map_length. apply seq_length.
      - intros t k Ht Hk. specialize (Hfg [p; t] k). cbn [app] in Hfg. rewrite Hfg; [|rewrite Hs; apply valid_2; split; assumption|exact Hk].
        f_equal.
        rewrite (nth_indep _ 0%R (get x [p; 0])) by (rewrite map_length, seq_length; exact Ht).
        rewrite (map_nth (fun t => get x [p; t])), seq_nth by exact Ht. reflexivity. }
    destruct (emb_exact uniform m e f _ (TFloat (tmap (nofR K) x)) raw slim par batch n d D num_points_default wt pts Hsh He Hb Er Hrs Hrg
      ltac:(intros; apply trap_weight_nonneg; assumption) ltac:(exists []; exact Hs) Hfs Hn ltac:(auto)) as (Zn & HZ & H).
    unfold outcome in H. rewrite E in H. destruct H as (Hp & _ & H).
    exists Zn. split; [exact Hp|]. split.
    { intros p Hp'. rewrite <- Hrow by exact Hp'. apply H, Hp'. }
    assert (Hi : forall g c, integral (fun ys => g ys * c)%R = (integral g * c)%R).
    { intros g c. unfold integral. rewrite !iter_trapezoid_sum.
      etransitivity; [|apply (lsum_mul_r R_cring)]. apply (lsum_ext R_cring). intros xs _. cbn. ring. }
    assert (Hb2 : integral born = emb_sum K uniform m n d D num_points_default wt pts).
    { unfold integral. rewrite iter_trapezoid_sum. apply (lsum_ext R_cring). intros ks _. f_equal. unfold born. f_equal.
      unfold emb_psi, amplitude. rewrite Hbias. f_equal. f_equal. generalize 0 as s. induction ks as [|k ks IH]; intros s; [reflexivity|].
      cbn [map sites]. rewrite IH. reflexivity. }
    destruct HZ as [[Hv HZ]|[Hv HZ]]; [left|right].
    - split; [exact Hv|]. unfold Rdiv. rewrite Hi, Hb2. rewrite emb_Z_sum in HZ by (left; exact Hbias). rewrite <- HZ.
      apply Rinv_r. lra.
    - split; [exact Hv|]. split; [unfold Rdiv; apply Hi|exact HZ].
  Qed.

  (** *** C18: rescaling by c changes nothing as long as the tolerances classify both Gram
      matrices alike (off-diagonal visible or not, diagonal flat or not).  Missing: factors c that
      change the classification; for these the claim is refuted (P_Emb2). *)
  Definition flat_diag (d : nat) (g : nat -> R) : Prop := forall k, k < d -> within_tol (K := K) (ofR (mean d g)) (ofR (g k)).
  Lemma used_flat d g lam : used_weights d g lam -> (flat_diag d g /\ forall k, lam k = mean d g) \/ (~ flat_diag d g /\ forall k, lam k = g k).
  Proof. intros [[H1 H2]|[(k & Hk & H1) H2]]; [left|right]; (split; [|exact H2]); [exact H1|intros H; apply H1, H, Hk]. Qed.
  Lemma weight_of_scale a lam lam' w : (forall k, lam' k = a * lam k)%R -> weight_of lam' w = (a ^ List.length w * weight_of lam w)%R.
  Proof.
    intros H. unfold weight_of. induction w as [|k w IH]; [cbn; lra|]. cbn [fold_right List.length pow smul R_ops R_cring]. 
    cbn in *. rewrite IH, H. ring.
  Qed.
  Lemma abs2_kpow c n : abs2 (kpow K c n) = (abs2 c ^ n)%R.
  Proof.
    induction n as [|n IH]; cbn [kpow pow]; [unfold abs2; rewrite <- nof_1, nabs_of, Rabs_R1; lra|]. rewrite abs2_mul, IH. reflexivity.
  Qed.
  Theorem C18_same_class_partial (uniform : bool) (m1 m2 : pmps K) e1 e2 f1 f2 M d phi c mn (ix : tensor Z)
      (slim par : bool) (batch n D : nat) (T1 T2 : xr) :
    c <> s0 -> shapes_of K uniform m1 n d D -> pm_bias K m1 = None ->
    pm_emb K m1 = Some e1 -> built K e1 f1 (mkDom false (INR M) mn) -> embeds_discrete f1 M d phi ->
    m2 = with_emb K m1 e2 -> built K e2 f2 (mkDom false (INR M) mn) ->
    embeds_discrete f2 M d (fun q k => smul c (phi q k)) ->
    (invisible d (gram_matrix M (fun _ => 1%R) phi) <-> invisible d (gram_matrix M (fun _ => 1%R) (fun q k => smul c (phi q k)))) ->
    (flat_diag d (component_weight M (fun _ => 1%R) phi) <-> flat_diag d (component_weight M (fun _ => 1%R) (fun q k => smul c (phi q k)))) ->
    wf_input (K := K) (TLong ix) batch n M -> 0 < n ->
    snd (fwd K uniform m1 (TLong ix) slim par) = Ok T1 -> snd (fwd K uniform m2 (TLong ix) slim par) = Ok T2 ->
    forall b, b < batch -> get T1 [b] = get T2 [b].
  Proof.
    intros Hc Hsh Hbias He1 Hb1 Hf1 -> Hb2 Hf2 Hiv Hfl Hx Hn E1 E2 b Hb.
    set (m2 := with_emb K m1 e2) in *.
    destruct (discrete_exact uniform m1 e1 f1 M d phi mn ix slim par batch n D Hsh He1 Hb1 Hf1 Hx Hn ltac:(auto)) as (Z1 & HZ1 & H1).
    destruct (discrete_exact uniform m2 e2 f2 M d _ mn ix slim par batch n D Hsh eq_refl Hb2 Hf2 Hx Hn ltac:(auto)) as (Z2 & HZ2 & H2).
    unfold outcome in H1, H2. rewrite E1 in H1. rewrite E2 in H2.
    destruct H1 as (Hp1 & _ & H1). destruct H2 as (Hp2 & _ & H2). specialize (H1 b Hb). specialize (H2 b Hb).
    apply (is_log_unique _ _ _ H1).
    assert (Hs : forall xs, List.length xs = n -> abs2 (emb_psi K uniform m2 d D (fun q k => smul c (phi q k)) xs) =
                    (abs2 c ^ n * abs2 (emb_psi K uniform m1 d D phi xs))%R).
    { intros xs Hxs. rewrite <- abs2_kpow, <- abs2_mul. f_equal. unfold emb_psi. cbn [m2 with_emb pm_core pm_edge pm_bias]. rewrite <- Hxs.
      apply amplitude_scale. intros t q i j. unfold vec_site. rewrite Hbias. cbn [bias_at].
      transitivity (bsum d (fun k => smul c (smul (phi q k) (entry (pm_core K m1) uniform t k i j)))).
      - transitivity (bsum d (fun k => smul (smul c (phi q k)) (entry (pm_core K m1) uniform t k i j))); [ring|].
        apply bsum_ext. intros; ring.
      - rewrite (bsum_mul_l K). ring. }
    assert (Ha : (0 < abs2 c ^ n)%R) by (rewrite <- abs2_kpow; apply abs2_kpow_pos, Hc).
    rewrite Hs in H2 by (unfold row_letters; rewrite map_length; apply seq_length).
    assert (HZ : Z2 = (abs2 c ^ n * Z1)%R).
    { destruct HZ1 as [[Hv1 HZ1]|[Hv1 (l1 & Hl1 & HZ1)]], HZ2 as [[Hv2 HZ2]|[Hv2 (l2 & Hl2 & HZ2)]]; try tauto.
      - rewrite emb_Z_sum in HZ1, HZ2 by (left; exact Hbias). rewrite HZ1, HZ2.
        unfold emb_sum. etransitivity; [|apply (lsum_mul_l R_cring)]. apply (lsum_ext R_cring). intros xs Hxs.
        rewrite Hs by (apply (words_length M n xs Hxs)). rewrite !weight_one. cbn. ring.
      - assert (Hg : forall k, component_weight M (fun _ => 1%R) (fun q k => smul c (phi q k)) k = (abs2 c * component_weight M (fun _ => 1%R) phi k)%R).
        { intros k. unfold component_weight. etransitivity; [|apply (bsum_mul_l R_cring)]. apply (bsum_ext (S := R_ops)). intros q _.
          rewrite abs2_mul. cbn. ring. }
        assert (Hm : mean d (component_weight M (fun _ => 1%R) (fun q k => smul c (phi q k))) = (abs2 c * mean d (component_weight M (fun _ => 1%R) phi))%R).
        { unfold mean, Rdiv. rewrite <- Rmult_assoc. f_equal. etransitivity; [|apply (bsum_mul_l R_cring)].
          apply (bsum_ext (S := R_ops)). intros k _. apply Hg. }
        assert (Hl : forall k, l2 k = (abs2 c * l1 k)%R).
        { intros k. destruct (used_flat _ _ _ Hl1) as [[F1 G1]|[F1 G1]], (used_flat _ _ _ Hl2) as [[F2 G2]|[F2 G2]]; try tauto;
            rewrite G1, G2; [exact Hm|apply Hg]. }
        rewrite HZ1, HZ2. unfold letter_sum. etransitivity; [|apply (lsum_mul_l R_cring)]. apply (lsum_ext R_cring). intros w Hw.
        rewrite (weight_of_scale _ _ _ w Hl), (words_length d n w Hw). cbn. ring. }
    rewrite HZ in H2.
    match goal with H : is_log _ (?a * ?x / (?a * ?y))%R |- _ => replace (a * x / (a * y))%R with (x / y)%R in H end; [exact H2|].
    field. split; lra.
  Qed.
End P.
(** Non-vacuity.  The model of C16_discrete_refuted (one value embedded as (1e-5,1e-5)) is in the
    lossy branch of C16_exact_total, and the theorem gives its total probability: 2.  Its multiple
    by 3 is classified alike, so C18_same_class_partial applies to the pair. *)
Lemma tiny_gram c k k' : gram_matrix (K := R_num) 1 (fun _ => 1%R) (fun _ _ => c) k k' = (c * c)%R.
Proof. unfold gram_matrix. cbn. lra. Qed.
Lemma tiny_weight c k : component_weight R_num 1 (fun _ => 1%R) (fun _ _ => c) k = (c * c)%R.
Proof. unfold component_weight, abs2. cbn -[Rabs]. rewrite <- Rabs_mult. rewrite Rabs_right; [lra|nra]. Qed.
Lemma tiny_invisible c : (c * c <= / 100000000)%R -> invisible R_num 2 (gram_matrix (K := R_num) 1 (fun _ => 1%R) (fun _ _ => c)).
Proof.
  intros H k k' _ _ _. rewrite tiny_gram. unfold within_tol. cbn -[Rabs]. unfold Rminus. rewrite Rplus_0_l, Rabs_Ropp.
  rewrite Rabs_right by nra. nra.
Qed.
Lemma tiny_flat c : flat_diag R_num 2 (component_weight R_num 1 (fun _ => 1%R) (fun _ _ => c)).
Proof.
  intros k _. unfold mean. cbn [bsum sadd R_ops s0]. rewrite !tiny_weight.
  replace ((0 + c * c + c * c) / INR 2)%R with (c * c)%R by (cbn; lra). apply within_refl.
Qed.
Example C16_exact_total_met :
  exists (m : pmps R_num) e T lam,
    shapes_of R_num false m 1 2 1 /\ pm_emb R_num m = Some e /\ built R_num e (flat 2 eps0) (mkDom false (INR 1) None) /\
    embeds_discrete (flat 2 eps0) 1 2 (fun _ _ => eps0) /\ pm_bias R_num m = None /\
    wf_input (K := R_num) (TLong one_row) 1 1 1 /\
    Permutation (map (row_letters one_row 1) (seq 0 1)) (words 1 1) /\
    snd (fwd R_num false m (TLong one_row) false false) = Ok T /\
    invisible R_num 2 (gram_matrix (K := R_num) 1 (fun _ => 1%R) (fun _ _ => eps0)) /\
    used_weights R_num 2 (component_weight R_num 1 (fun _ => 1%R) (fun _ _ => eps0)) lam /\
    (emb_sum R_num false m 1 2 1 1 (fun _ => 1%R) (fun _ _ => eps0) / letter_sum R_num false m 1 2 1 lam = 2)%R.
Proof.
  destruct C16_discrete_refuted as (m & e & T & Hf & He & Hb & Hsh & Hfw & Hperm & Htot).
  exists m, e, T. pose proof eps0_sq as Hq.
  destruct (C16_exact_total R_num false m e (flat 2 eps0) 1 2 (fun _ _ => eps0) None one_row false false 1 1 1 T Hsh He
    (or_introl Hf) (flat_embeds 2 eps0 1) Hb one_row_wf ltac:(lia) Hfw) as [_ H].
  destruct (H (tiny_invisible eps0 ltac:(lra))) as (lam & Hlam & _ & _ & Ht).
  exists lam. split; [exact Hsh|]. split; [exact He|]. split; [left; exact Hf|]. split; [apply flat_embeds|].
  split; [exact Hb|]. split; [apply one_row_wf|]. split; [exact Hperm|]. split; [exact Hfw|].
  split; [apply tiny_invisible; lra|]. split; [exact Hlam|]. rewrite <- (Ht Hperm). exact Htot.
Qed.
Example C18_same_class_met :
  (invisible R_num 2 (gram_matrix (K := R_num) 1 (fun _ => 1%R) (fun _ _ => eps0)) <->
   invisible R_num 2 (gram_matrix (K := R_num) 1 (fun _ => 1%R) (fun _ _ => 3 * eps0)%R)) /\
  (flat_diag R_num 2 (component_weight R_num 1 (fun _ => 1%R) (fun _ _ => eps0)) <->
   flat_diag R_num 2 (component_weight R_num 1 (fun _ => 1%R) (fun _ _ => 3 * eps0)%R)) /\
  ~ lossless (K := R_num) 2 (gram_matrix (K := R_num) 1 (fun _ => 1%R) (fun _ _ => eps0)).
Proof.
  split; [split; intros _; apply tiny_invisible; unfold eps0; lra|]. split; [split; intros _; apply tiny_flat|].
  intros [(k & k' & Hk & Hk' & Hne & H)|[H _]].
  - apply H. apply (tiny_invisible eps0); try assumption. unfold eps0; lra.
  - specialize (H 0 1 ltac:(lia) ltac:(lia) ltac:(lia)). rewrite tiny_gram in H. pose proof eps0_pos. cbn in H. nra.
Qed.

Print Assumptions C16_exact_total.
Print Assumptions C13_exact_total.
Print Assumptions C17_exact_total.
Print Assumptions C18_same_class_partial.
