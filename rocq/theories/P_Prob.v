(** * P_Prob: properties C08-C15 and C23 (torchmps/prob_mps.py) for models without
    embedding; embeddings are in P_Emb. *)
From Coq Require Import Ring_theory Ring Reals Lra Permutation.
From Verif Require Import Base Scalars Tensor Utils2 MpsBase Embeddings ProbMps Spec MatSpec ModelSpec
  LinAlg Utils2Proofs EinsumProofs MatseqProofs SlimProofs LogNorm ProbProofs.

(** all words are listed *)
Lemma in_words d n xs : List.length xs = n -> (forall x, In x xs -> x < d) -> In xs (words d n).
Proof.
  revert n; induction xs as [|x xs IH]; intros n Hl Hx; simpl in Hl; subst n; [left; reflexivity|].
  cbn [words]. apply in_flat_map. exists x. split; [apply in_seq; specialize (Hx x (or_introl eq_refl)); lia|].
  apply in_map. apply IH; [reflexivity|]. intros y Hy. apply Hx. right; exact Hy.
Qed.
Lemma is_log_unique x y p : is_log x p -> is_log y p -> x = y.
Proof. intros [[H ->]|[H ->]] [[H' ->]|[H' ->]]; try reflexivity; lra. Qed.
Lemma is_log_pos x p : is_log x p -> (p <> 0)%R -> x = XFin (ln p).
Proof. intros [[_ ->]|[H _]] Hn; [reflexivity|contradiction]. Qed.
Lemma is_log_prob x p : is_log x p -> prob_of x = p.
Proof. intros [[H ->]|[-> ->]]; cbn [prob_of]; [apply exp_ln, H|reflexivity]. Qed.
(** an extended real that is a legal log probability: -inf or a number <= 0 *)
Definition nonpositive (x : xreal) : Prop :=
  match x with XFin r => (r <= 0)%R | XNInf => True | _ => False end.
Lemma is_log_nonpos x p : is_log x p -> (p <= 1)%R -> nonpositive x.
Proof.
  intros [[H ->]|[_ ->]] Hp; cbn; [|exact I]. rewrite <- ln_1.
  destruct Hp as [Hp| ->]; [left; apply ln_increasing; assumption|right; reflexivity].
Qed.

Section P.
  Variable K : numfield.
  Add Ring KrPP : (rth K).
  Notation xr := (tensor xreal).

  (** The amplitude of row b, and the partition function of a model: sum over all
      words of length n of |psi|^2, with psi the contraction of (cores + bias) with the
      edge vectors *)
  Definition psi (uniform : bool) (m : pmps K) (n d D : nat) (x : tin K) (b : nat) : K :=
    row_amp (pm_core K m) (pm_edge K m) (pm_bias K m) uniform n d D x b.
  Definition Zfun (uniform : bool) (m : pmps K) (n d D : nat) : R :=
    partition_fn d n D (edge_at (pm_edge K m) 0) (edge_at (pm_edge K m) 1)
      (letter_site (pm_core K m) uniform (pm_bias K m)).

  Lemma row_in_words ix batch n d b : wf_input (K := K) (TLong ix) batch n d -> b < batch ->
    In (row_letters ix n b) (words d n).
  Proof.
    intros [Hs Hr] Hb. apply in_words; [unfold row_letters; rewrite map_length; apply seq_length|].
    intros x Hx. unfold row_letters in Hx. apply in_map_iff in Hx as (t & <- & Ht). apply in_seq in Ht.
    specialize (Hr b t Hb ltac:(lia)). lia.
  Qed.
  Lemma psi_le_Z uniform m ix batch n d D b : wf_input (K := K) (TLong ix) batch n d -> b < batch ->
    (abs2 (psi uniform m n d D (TLong ix) b) <= Zfun uniform m n d D)%R.
  Proof.
    intros Hx Hb. pose proof (row_in_words ix batch n d b Hx Hb) as Hin.
    unfold Zfun, partition_fn, psi, row_amp.
    set (f := fun xs => abs2 (amplitude D (edge_at (pm_edge K m) 0) (edge_at (pm_edge K m) 1)
                 (letter_site (pm_core K m) uniform (pm_bias K m)) xs)).
    fold (f (row_letters ix n b)). generalize (row_letters ix n b) Hin. clear.
    assert (Hf : forall xs, (0 <= f xs)%R) by (intros; apply abs2_nonneg).
    induction (words d n) as [|y l IH]; intros xs Hin; [destruct Hin|].
    change (lsum (K := R_ops) (y :: l) f) with (f y + lsum (K := R_ops) l f)%R.
    assert (0 <= lsum (K := R_ops) l f)%R by (apply lsumR_nonneg; intros; apply Hf).
    destruct Hin as [->|Hin]; [lra|]. specialize (IH xs Hin). specialize (Hf y). lra.
  Qed.

  (** Facts shared by C08 and C10 *)
  Lemma born (uniform : bool) (m : pmps K) (x : tin K) (slim par : bool) (batch n d D : nat) :
    shapes_of K uniform m n d D -> pm_emb K m = None -> wf_input x batch n d -> 0 < n ->
    (slim = true -> pm_bias K m = None) ->
    (0 < Zfun uniform m n d D)%R -> (forall b, b < batch -> psi uniform m n d D x b <> s0) ->
    exists T, snd (fwd K uniform m x slim par) = Ok T /\ shp T = [batch] /\
      forall b, b < batch -> get T [b] = XFin (ln (abs2 (psi uniform m n d D x b) / Zfun uniform m n d D)).
  Proof.
    intros Hsh He Hx Hn Hsl HZ Hnz.
    destruct (forward_ok K uniform m x slim par batch n d D Hsh He Hx Hn Hsl) as [H _].
    destruct (snd (fwd K uniform m x slim par)) as [T|e].
    - destruct H as (_ & HT & H). exists T. split; [reflexivity|]. split; [exact HT|]. intros b Hb.
      apply is_log_pos; [apply H, Hb|]. intros E. specialize (Hnz b Hb). apply Hnz.
      apply abs2_zero. apply Rmult_integral in E as [E|E]; [exact E|].
      exfalso. pose proof (Rinv_0_lt_compat _ HZ) as HI. change (/ Zfun uniform m n d D = 0)%R in E. lra.
    - destruct H as [_ [HZ0|(b & Hb & Hz)]]; exfalso; [unfold Zfun, model_Z in *; lra|apply (Hnz b Hb Hz)].
  Qed.
  Lemma psi_Z_pos uniform m ix batch n d D b : wf_input (K := K) (TLong ix) batch n d -> b < batch ->
    psi uniform m n d D (TLong ix) b <> s0 -> (0 < Zfun uniform m n d D)%R.
  Proof.
    intros Hx Hb Hnz. pose proof (psi_le_Z uniform m ix batch n d D b Hx Hb) as H.
    pose proof (abs2_nonneg K (psi uniform m n d D (TLong ix) b)) as [Hp|Hp]; [lra|].
    exfalso. apply Hnz, abs2_zero. symmetry. exact Hp.
  Qed.

  (** *** C08: ProbMPS.forward computes ln(|psi(x)|^2 / Z), in every mode *)
  Theorem C08_forward_born (m : pmps K) (ix : tensor Z) (slim par : bool) (batch n d D : nat) :
    shapes_fixed K m n d D -> pm_emb K m = None -> wf_input (K := K) (TLong ix) batch n d -> 0 < batch ->
    (slim = true -> pm_bias K m = None) ->
    (forall b, b < batch -> psi false m n d D (TLong ix) b <> s0) ->
    exists T, snd (forward_fixed K m (TLong ix) slim par) = Ok T /\ shp T = [batch] /\
      forall b, b < batch ->
        get T [b] = XFin (ln (abs2 (psi false m n d D (TLong ix) b) / Zfun false m n d D)).
  Proof.
    intros Hsh He Hx Hbt Hsl Hnz. assert (Hn : 0 < n) by (destruct Hsh; assumption).
    apply (born false m (TLong ix) slim par batch n d D Hsh He Hx Hn Hsl); [|exact Hnz].
    apply (psi_Z_pos false m ix batch n d D 0 Hx Hbt (Hnz 0 Hbt)).
  Qed.
  (** the same for vector inputs, when the model is normalisable *)
  Theorem C08_forward_born_vectors (m : pmps K) (v : tensor K) (slim par : bool) (batch n d D : nat) :
    shapes_fixed K m n d D -> pm_emb K m = None -> wf_input (TFloat v) batch n d ->
    (slim = true -> pm_bias K m = None) -> (0 < Zfun false m n d D)%R ->
    (forall b, b < batch -> psi false m n d D (TFloat v) b <> s0) ->
    exists T, snd (forward_fixed K m (TFloat v) slim par) = Ok T /\ shp T = [batch] /\
      forall b, b < batch ->
        get T [b] = XFin (ln (abs2 (psi false m n d D (TFloat v) b) / Zfun false m n d D)).
  Proof.
    intros Hsh He Hx Hsl HZ Hnz. assert (Hn : 0 < n) by (destruct Hsh; assumption).
    apply (born false m (TFloat v) slim par batch n d D Hsh He Hx Hn Hsl HZ Hnz).
  Qed.

  (** *** C09: normalisation.  Shared proof for both classes. *)
  Lemma normalised (uniform : bool) (m : pmps K) (ix : tensor Z) (slim par : bool) (batch n d D : nat) T :
    shapes_of K uniform m n d D -> pm_emb K m = None -> wf_input (K := K) (TLong ix) batch n d -> 0 < n ->
    snd (fwd K uniform m (TLong ix) slim par) = Ok T ->
    (forall b, b < batch -> nonpositive (get T [b])) /\
    (Permutation (map (row_letters ix n) (seq 0 batch)) (words d n) ->
     bsum (S := R_ops) batch (fun b => prob_of (get T [b])) = 1%R).
  Proof.
    intros Hsh He Hx Hn E.
    assert (Hsl : slim = true -> pm_bias K m = None).
    { intros ->. destruct (pm_bias K m) as [bm|] eqn:Eb; [|reflexivity]. exfalso.
      destruct uniform; cbn [fwd] in E.
      - unfold forward_unif in E. destruct Hx as [Hs _]. cbn [tin_shp] in E. rewrite Hs in E.
        unfold embed in E. rewrite He in E. cbn [snd rbind] in E. unfold amplitudes in E. rewrite Eb in E. discriminate.
      - unfold forward_fixed, embed in E. rewrite He in E. cbn [snd rbind] in E. unfold amplitudes in E. rewrite Eb in E. discriminate. }
    destruct (forward_ok K uniform m (TLong ix) slim par batch n d D Hsh He Hx Hn Hsl) as [H _].
    rewrite E in H. destruct H as (HZ & HT & H). split.
    - intros b Hb. apply (is_log_nonpos _ _ (H b Hb)).
      pose proof (psi_le_Z uniform m ix batch n d D b Hx Hb) as Hle.
      unfold psi, Zfun, model_Z in *. apply (Rmult_le_reg_r _ _ _ HZ).
      unfold Rdiv. rewrite Rmult_assoc, Rinv_l by lra. lra.
    - intros Hperm.
      set (Z := model_Z K m uniform n d D) in *.
      set (f := fun xs => abs2 (amplitude D (edge_at (pm_edge K m) 0) (edge_at (pm_edge K m) 1)
                 (letter_site (pm_core K m) uniform (pm_bias K m)) xs)).
      transitivity (bsum (S := R_ops) batch (fun b => f (row_letters ix n b) * / Z)%R).
      { apply bsum_ext. intros b Hb. rewrite (is_log_prob _ _ (H b Hb)). reflexivity. }
      transitivity (bsum (S := R_ops) batch (fun b => f (row_letters ix n b)) * / Z)%R.
      { apply (bsum_mul_r R_cring). }
      assert (Hsum : bsum (S := R_ops) batch (fun b => f (row_letters ix n b)) = Z).
      { transitivity (lsum (K := R_ops) (seq 0 batch) (fun b => f (row_letters ix n b))).
        { symmetry. apply (lsum_seq R_cring). }
        transitivity (lsum (K := R_ops) (map (row_letters ix n) (seq 0 batch)) f).
        { symmetry. apply (lsum_map R_cring). }
        apply (lsum_perm R_cring). exact Hperm. }
      rewrite Hsum. apply Rinv_r. lra.
  Qed.
  Theorem C09_normalised (m : pmps K) (ix : tensor Z) (slim par : bool) (batch n d D : nat) (T : xr) :
    shapes_fixed K m n d D -> pm_emb K m = None -> wf_input (K := K) (TLong ix) batch n d ->
    snd (forward_fixed K m (TLong ix) slim par) = Ok T ->
    (** every log probability is <= 0 *)
    (forall b, b < batch -> nonpositive (get T [b])) /\
    (** if the batch lists every sequence once, the probabilities sum to 1 *)
    (Permutation (map (row_letters ix n) (seq 0 batch)) (words d n) ->
     bsum (S := R_ops) batch (fun b => prob_of (get T [b])) = 1%R).
  Proof.
    intros Hsh He Hx E. assert (Hn : 0 < n) by (destruct Hsh; assumption).
    apply (normalised false m ix slim par batch n d D T Hsh He Hx Hn E).
  Qed.

  (** *** C10: ProbUnifMPS at every length *)
  Theorem C10_forward_born (m : pmps K) (ix : tensor Z) (slim par : bool) (batch n d D : nat) :
    shapes_unif K m d D -> pm_emb K m = None -> wf_input (K := K) (TLong ix) batch n d -> 0 < batch -> 0 < n ->
    (slim = true -> pm_bias K m = None) ->
    (forall b, b < batch -> psi true m n d D (TLong ix) b <> s0) ->
    exists T, snd (forward_unif K m (TLong ix) slim par) = Ok T /\ shp T = [batch] /\
      forall b, b < batch ->
        get T [b] = XFin (ln (abs2 (psi true m n d D (TLong ix) b) / Zfun true m n d D)).
  Proof.
    intros Hsh He Hx Hbt Hn Hsl Hnz.
    apply (born true m (TLong ix) slim par batch n d D Hsh He Hx Hn Hsl); [|exact Hnz].
    apply (psi_Z_pos true m ix batch n d D 0 Hx Hbt (Hnz 0 Hbt)).
  Qed.
  Theorem C10_normalised (m : pmps K) (ix : tensor Z) (slim par : bool) (batch n d D : nat) (T : xr) :
    shapes_unif K m d D -> pm_emb K m = None -> wf_input (K := K) (TLong ix) batch n d -> 0 < n ->
    snd (forward_unif K m (TLong ix) slim par) = Ok T ->
    (forall b, b < batch -> nonpositive (get T [b])) /\
    (Permutation (map (row_letters ix n) (seq 0 batch)) (words d n) ->
     bsum (S := R_ops) batch (fun b => prob_of (get T [b])) = 1%R).
  Proof. intros Hsh He Hx Hn E. apply (normalised true m ix slim par batch n d D T Hsh He Hx Hn E). Qed.

  (** *** C11: zero amplitudes *)
  (** In the default mode a batch containing a sequence of amplitude zero is rejected
      with an AssertionError, whatever the other rows are: the claim is false for every
      model that has a zero-amplitude sequence. *)
  Theorem C11_zero_amplitude_refuted (m : pmps K) (ix : tensor Z) (batch n d D b : nat) :
    shapes_fixed K m n d D -> pm_emb K m = None -> wf_input (K := K) (TLong ix) batch n d ->
    b < batch -> psi false m n d D (TLong ix) b = s0 ->
    snd (forward_fixed K m (TLong ix) false false) = Err AssertionError.
  Proof.
    intros Hsh He Hx Hb Hz. assert (Hn : 0 < n) by (destruct Hsh; assumption).
    destruct (forward_ok K false m (TLong ix) false false batch n d D Hsh He Hx Hn ltac:(discriminate)) as (_ & _ & H & _).
    apply H. exists b. split; [exact Hb|exact Hz].
  Qed.
  (** What holds in all three modes and both classes: when forward returns, exactly the
      sequences of amplitude zero have log probability -inf and every other row has its
      correct finite value; when it raises, it is an AssertionError and some amplitude of
      the batch (or the whole model) is zero.  Missing: that the call returns at all. *)
  Theorem C11_zero_amplitude_partial (uniform : bool) (m : pmps K) (x : tin K) (slim par : bool) (batch n d D : nat) :
    shapes_of K uniform m n d D -> pm_emb K m = None -> wf_input x batch n d -> 0 < n ->
    (slim = true -> pm_bias K m = None) ->
    match snd (fwd K uniform m x slim par) with
    | Ok T => shp T = [batch] /\ forall b, b < batch ->
        (psi uniform m n d D x b = s0 -> get T [b] = XNInf) /\
        (psi uniform m n d D x b <> s0 ->
           get T [b] = XFin (ln (abs2 (psi uniform m n d D x b) / Zfun uniform m n d D)))
    | Err e => e = AssertionError /\
        (Zfun uniform m n d D = 0%R \/ exists b, b < batch /\ psi uniform m n d D x b = s0)
    end.
  Proof.
    intros Hsh He Hx Hn Hsl.
    destruct (forward_ok K uniform m x slim par batch n d D Hsh He Hx Hn Hsl) as [H _].
    destruct (snd (fwd K uniform m x slim par)) as [T|e]; [|exact H].
    destruct H as (HZ & HT & H). split; [exact HT|]. intros b Hb. specialize (H b Hb). split.
    - intros Hz. unfold psi in Hz. rewrite Hz, abs2_s0 in H. unfold Rdiv in H. rewrite Rmult_0_l in H.
      destruct H as [[H _]|[_ H]]; [lra|exact H].
    - intros Hz. apply (is_log_pos _ _ H). intros E.
      apply Rmult_integral in E as [E|E]; [apply Hz, abs2_zero, E|]. pose proof (Rinv_0_lt_compat _ HZ). lra.
  Qed.
  (** slim_eval does return on zero amplitudes as long as no row has a vanishing left
      product (the zero appears only in the last contraction) *)
  Theorem C11_slim_returns (m : pmps K) (x : tin K) (par : bool) (batch n d D : nat) :
    shapes_fixed K m n d D -> pm_emb K m = None -> pm_bias K m = None -> wf_input x batch n d ->
    (0 < Zfun false m n d D)%R ->
    (forall b, b < batch -> exists j, j < D /\
       vmul D (edge_at (pm_edge K m) 0) (chain (row_mats (pm_core K m) None false n d D x b)) j <> s0) ->
    exists T, snd (forward_fixed K m x true par) = Ok T.
  Proof.
    intros Hsh He Hb0 Hx HZ Hl.
    destruct (shapes_get K false m n d D Hsh) as (Hd & HD & Hc & Hed & Hb). assert (Hn : 0 < n) by (destruct Hsh; assumption).
    destruct (slim_eval_ok K x (pm_core K m) (pm_edge K m) false batch n d D Hx Hc Hed HD Hn) as (P & L & E & HP & HL & H).
    assert (Ha : amps_ok K P L batch (psi false m n d D x) /\ forall b, b < batch -> get P [b] <> Bad).
    { assert (Hfc : forall b i j, i < D -> j < D ->
        chain (fchain K D n (site_mat K (pm_core K m) false x d b)) i j =
        chain (fchain K D n (row_site K (pm_core K m) None false d x b)) i j).
      { intros b. apply fchain_ext. intros t i' j' _ _ _. unfold row_site. cbn [bias_at]. ring. }
      split.
      - split; [exact HP|]. split; [exact HL|]. intros b Hb'. unfold psi. rewrite Hb0, row_amp_chain.
        destruct (H b Hb') as [[(s & c & Hs & Hc' & Hx')|[Hbad Hz]] _].
        + left. exists s, c. split; [exact Hs|]. split; [exact Hc'|]. rewrite Hx'.
          apply sandwich_ext; [reflexivity|reflexivity|apply Hfc].
        + right. split; [exact Hbad|]. exfalso. destruct (Hl b Hb') as (j & Hj & Hnz). apply Hnz.
          rewrite row_mats_fchain. rewrite <- (Hz j Hj). unfold lprod, vmul. apply bsum_ext. intros i Hi.
          rewrite Hfc by assumption. reflexivity.
      - intros b Hb' Hbad. destruct (H b Hb') as [[(s & c & _ & Hc' & _)|[_ Hz]] _]; [congruence|].
        destruct (Hl b Hb') as (j & Hj & Hnz). apply Hnz.
        rewrite row_mats_fchain. rewrite <- (Hz j Hj). unfold lprod, vmul. apply bsum_ext. intros i Hi.
        rewrite Hfc by assumption. reflexivity. }
    destruct Ha as [Ha Hnb].
    assert (Hlog : norm_ok (log_norm_fixed K m) (Zfun false m n d D)).
    { destruct (biased_core K m false n d D Hc Hb) as (c & Ec & Hcok).
      unfold log_norm_fixed. rewrite Ec. cbn [rbind]. unfold lamb_of. rewrite He. cbn [rbind].
      apply (get_log_norm_model K m false n d D); try assumption. right; split; reflexivity. }
    pose proof (finish_ok K P L (log_norm_fixed K m) (fun _ => true) batch _ _ Ha Hlog ltac:(lra) ltac:(reflexivity)) as HF.
    unfold forward_fixed, embed. rewrite He. cbn [snd rbind]. unfold amplitudes. rewrite Hb0.
    bind_with E. cbn [rbind].
    destruct (finish K (P, L) (log_norm_fixed K m) (fun _ => true)) as [T|e]; [exists T; reflexivity|].
    exfalso. destruct HF as [_ [HZ0|(b & Hb' & _ & Hbad)]]; [lra|]. apply (Hnb b Hb' Hbad).
  Qed.

  (** *** C12: batch elements do not influence each other (nor does the mode) *)
  Definition same_row (n d : nat) (x y : tin K) (b b' : nat) : Prop :=
    match x, y with
    | TLong ix, TLong iy => forall t, t < n -> get ix [b; t] = get iy [b'; t]
    | TFloat v, TFloat w => forall t k, t < n -> k < d -> get v [b; t; k] = get w [b'; t; k]
    | _, _ => False
    end.
  Lemma same_row_amp core edge bias uniform n d D x y b b' : same_row n d x y b b' ->
    row_amp core edge bias uniform n d D x b = row_amp core edge bias uniform n d D y b'.
  Proof.
    intros H. rewrite !row_amp_chain. apply sandwich_ext; [reflexivity|reflexivity|]. apply fchain_ext.
    intros t i j Ht Hi Hj. unfold row_site, site_mat, slice_at. f_equal.
    destruct x as [ix|v], y as [iy|w]; cbn [same_row] in H; try contradiction.
    - rewrite H by exact Ht. reflexivity.
    - apply bsum_ext. intros k Hk. rewrite H by assumption. reflexivity.
  Qed.
  Theorem C12_batch_independence (uniform : bool) (m : pmps K) (x y : tin K) (slim par slim' par' : bool)
      (batch batch' n d D : nat) (T U : xr) (b b' : nat) :
    shapes_of K uniform m n d D -> pm_emb K m = None -> 0 < n ->
    wf_input x batch n d -> wf_input y batch' n d ->
    (slim = true \/ slim' = true -> pm_bias K m = None) ->
    snd (fwd K uniform m x slim par) = Ok T -> snd (fwd K uniform m y slim' par') = Ok U ->
    b < batch -> b' < batch' -> same_row n d x y b b' ->
    get T [b] = get U [b'].
  Proof.
    intros Hsh He Hn Hx Hy Hsl ET EU Hb Hb' Hrow.
    destruct (forward_ok K uniform m x slim par batch n d D Hsh He Hx Hn ltac:(auto)) as [H _].
    destruct (forward_ok K uniform m y slim' par' batch' n d D Hsh He Hy Hn ltac:(auto)) as [H' _].
    rewrite ET in H. rewrite EU in H'. destruct H as (_ & _ & H). destruct H' as (_ & _ & H').
    specialize (H b Hb). specialize (H' b' Hb').
    rewrite <- (same_row_amp (pm_core K m) (pm_edge K m) (pm_bias K m) uniform n d D x y b b' Hrow) in H'.
    apply (is_log_unique _ _ _ H H').
  Qed.

  (** *** C13, without embedding: a biased model is normalised (C09 covers every value of
      the bias; restated here for a model that has one).  With an embedding the claim is
      false: see P_Emb. *)
  Theorem C13_bias_no_embedding_partial (m : pmps K) (bias : tensor K) (ix : tensor Z) (par : bool) (batch n d D : nat) (T : xr) :
    shapes_fixed K m n d D -> pm_emb K m = None -> pm_bias K m = Some bias -> wf_input (K := K) (TLong ix) batch n d ->
    snd (forward_fixed K m (TLong ix) false par) = Ok T ->
    Permutation (map (row_letters ix n) (seq 0 batch)) (words d n) ->
    bsum (S := R_ops) batch (fun b => prob_of (get T [b])) = 1%R.
  Proof. intros Hsh He _ Hx E. apply (C09_normalised m ix false par batch n d D T Hsh He Hx E). Qed.

  (** *** C14: parallel_eval does not override slim_eval *)
  (** Every biased model refuses slim_eval with parallel_eval ... *)
  Theorem C14_override_refuted (m : pmps K) (bias : tensor K) (x : tin K) (par : bool) :
    pm_emb K m = None -> pm_bias K m = Some bias ->
    snd (forward_fixed K m x true par) = Err ValueError.
  Proof.
    intros He Hb. unfold forward_fixed, embed. rewrite He. cbn [snd rbind]. unfold amplitudes. rewrite Hb. reflexivity.
  Qed.
  (** ... in fact parallel_eval is ignored when slim_eval is set, for both classes *)
  Theorem C14_slim_wins (m : pmps K) (x : tin K) (par : bool) :
    forward_fixed K m x true par = forward_fixed K m x true false /\
    forward_unif K m x true par = forward_unif K m x true false.
  Proof.
    split.
    - unfold forward_fixed. destruct (embed K m x) as [m' ex]. reflexivity.
    - unfold forward_unif. destruct (tin_shp x) as [|a [|b r]]; [reflexivity|reflexivity|].
      destruct (embed K m x) as [m' ex]. reflexivity.
  Qed.
  (** What holds of the claim: on bias-free models the values returned with both flags are
      those of parallel_eval alone, whenever both calls return.  Missing: biased models, and
      batches for which only one of the two calls returns. *)
  Theorem C14_same_value_partial (uniform : bool) (m : pmps K) (x : tin K) (batch n d D : nat) (T U : xr) :
    shapes_of K uniform m n d D -> pm_emb K m = None -> 0 < n -> pm_bias K m = None -> wf_input x batch n d ->
    snd (fwd K uniform m x true true) = Ok T -> snd (fwd K uniform m x false true) = Ok U ->
    forall b, b < batch -> get T [b] = get U [b].
  Proof.
    intros Hsh He Hn Hb Hx ET EU b Hb'.
    apply (C12_batch_independence uniform m x x true true false true batch batch n d D T U b b); auto.
    destruct x; cbn [same_row]; reflexivity.
  Qed.

  (** *** C15: loss *)
  Theorem C15_loss_mean (uniform : bool) (m : pmps K) (x : tin K) (slim par : bool) (batch : nat) (T : xr) (l : nat -> R) :
    snd (fwd K uniform m x slim par) = Ok T -> shp T = [batch] -> 0 < batch ->
    (forall b, b < batch -> get T [b] = XFin (l b)) ->
    snd (if uniform then loss_unif K m x slim par else loss_fixed K m x slim par)
    = Ok (XFin (- (bsum (S := R_ops) batch l / INR batch))).
  Proof.
    intros E Hs Hb Hl.
    assert (Hm : tmean T = XFin (bsum (S := R_ops) batch l / INR batch)).
    { unfold tmean. rewrite Hs. cbn [hd]. rewrite (bsum_xrfin batch _ l) by exact Hl.
      apply xdivc_fin. apply not_0_INR. lia. }
    destruct uniform; cbn [fwd] in E; unfold loss_unif, loss_fixed, loss_of; cbn [snd]; rewrite E; cbn [rbind];
      rewrite Hm; reflexivity.
  Qed.
  (** a zero-probability sequence makes the loss +inf *)
  Lemma bsum_ninf n (f : nat -> xreal) k : k < n -> f k = XNInf ->
    (forall b, b < n -> f b = XNInf \/ exists r, f b = XFin r) -> bsum (S := xr_ops) n f = XNInf.
  Proof.
    intros Hk Hf Hall.
    assert (G : forall n, (forall b, b < n -> f b = XNInf \/ exists r, f b = XFin r) ->
       (exists r, bsum (S := xr_ops) n f = XFin r) \/ bsum (S := xr_ops) n f = XNInf).
    { clear. induction n as [|n IH]; intros H; cbn [bsum]; [left; eexists; reflexivity|].
      destruct IH as [[r ->]| ->]; [intros; apply H; lia| |];
        destruct (H n ltac:(lia)) as [->|[r' ->]]; cbn; eauto. }
    revert k Hk Hf. induction n as [|n IH]; intros k Hk Hf; [lia|]. cbn [bsum].
    destruct (Nat.eq_dec k n) as [->|Hne].
    - rewrite Hf. destruct (G n ltac:(intros; apply Hall; lia)) as [[r ->]| ->]; reflexivity.
    - rewrite (IH ltac:(intros; apply Hall; lia) k ltac:(lia) Hf).
      destruct (Hall n ltac:(lia)) as [->|[r ->]]; reflexivity.
  Qed.
  Theorem C15_loss_infinite (uniform : bool) (m : pmps K) (x : tin K) (slim par : bool) (batch k : nat) (T : xr) :
    snd (fwd K uniform m x slim par) = Ok T -> shp T = [batch] ->
    (forall b, b < batch -> get T [b] = XNInf \/ exists r, get T [b] = XFin r) ->
    k < batch -> get T [k] = XNInf ->
    snd (if uniform then loss_unif K m x slim par else loss_fixed K m x slim par) = Ok XPInf.
  Proof.
    intros E Hs Hall Hk Hinf.
    assert (Hm : tmean T = XNInf).
    { unfold tmean. rewrite Hs. cbn [hd]. rewrite (bsum_ninf batch _ k Hk Hinf Hall). reflexivity. }
    destruct uniform; cbn [fwd] in E; unfold loss_unif, loss_fixed, loss_of; cbn [snd]; rewrite E; cbn [rbind];
      rewrite Hm; reflexivity.
  Qed.
  Theorem C15_loss_raises (uniform : bool) (m : pmps K) (x : tin K) (slim par : bool) (e : exn) :
    snd (fwd K uniform m x slim par) = Err e ->
    snd (if uniform then loss_unif K m x slim par else loss_fixed K m x slim par) = Err e.
  Proof.
    intros E. destruct uniform; cbn [fwd] in E; unfold loss_unif, loss_fixed, loss_of; cbn [snd]; rewrite E; reflexivity.
  Qed.
  (** the value does not otherwise depend on the flags: it is determined by the amplitudes *)

  (** *** C23: inputs of the wrong length *)
  (** The first n' cores of a model, as if it had been built for sequences of length n' *)
  Definition truncate (m : pmps K) (n' : nat) : pmps K :=
    mkP K (mkT (n' :: tl (shp (pm_core K m))) (get (pm_core K m))) (pm_edge K m) (pm_bias K m) (pm_emb K m).
  (** Refutation, for every model: an input that is too short is accepted in the default
      and parallel modes; the unnormalised amplitude of the first n' cores is divided by
      the normalisation of the full model. *)
  Theorem C23_short_input_refuted (m : pmps K) (ix : tensor Z) (par : bool) (batch n n' d D : nat) :
    shapes_fixed K m n d D -> pm_emb K m = None -> 0 < n' -> n' < n -> wf_input (K := K) (TLong ix) batch n' d ->
    (0 < Zfun false m n d D)%R ->
    (forall b, b < batch -> psi false (truncate m n') n' d D (TLong ix) b <> s0) ->
    exists T, snd (forward_fixed K m (TLong ix) false par) = Ok T /\ shp T = [batch] /\
      forall b, b < batch ->
        get T [b] = XFin (ln (abs2 (psi false (truncate m n') n' d D (TLong ix) b) / Zfun false m n d D)).
  Proof.
    intros Hsh He Hn' Hlt Hx HZ Hnz.
    destruct (shapes_get K false m n d D Hsh) as (Hd & HD & Hc & Hed & Hb).
    assert (Hc' : shp (pm_core K (truncate m n')) = [n'; d; D; D]) by (cbn [truncate pm_core shp]; rewrite Hc; reflexivity).
    destruct (amplitudes_ok K (truncate m n') (TLong ix) false false par batch n' d D Hx Hc' Hed Hb ltac:(discriminate) HD Hn')
      as (P & L & E & Ha & _).
    assert (EA : amplitudes K false m (TLong ix) false par = Ok (P, L)).
    { rewrite <- E. unfold amplitudes. cbn [truncate pm_core pm_edge pm_bias].
      match goal with |- rbind ?a _ = rbind ?b _ => assert (Eg : a = b); [|rewrite Eg; reflexivity] end.
      destruct Hx as [Hs Hr]. unfold get_mat_slices. cbn [tin_shp tin_fin]. rewrite Hs.
      assert (N1 : ndim (tfin K (pm_core K m)) = 4) by (unfold ndim; cbn [tfin tmap shp]; rewrite Hc; reflexivity).
      assert (N2 : ndim (tfin K (mkT (n' :: tl (shp (pm_core K m))) (get (pm_core K m)))) = 4)
        by (unfold ndim; cbn [tfin tmap shp]; rewrite Hc; reflexivity).
      rewrite N1, N2. cbn [List.length Nat.eqb orb assert_ rbind].
      unfold gather01. cbn [tfin tmap shp]. rewrite Hc. cbn [tl].
      assert (Hf : forall nn, n' <= nn -> forallb (fun i => (nth 1 i 0 <? nn) && in_range d (get ix i)) (all_idx (shp ix)) = true).
      { intros nn Hnn. apply forallb_forall. intros i Hi. apply all_idx_spec in Hi. rewrite Hs in Hi.
        apply (valid_app2_inv []) in Hi as (b & p & q & -> & Hb' & Hp & Hq).
        apply valid_nil in Hb'. subst. cbn [app nth]. apply andb_true_iff. split; [apply Nat.ltb_lt; lia|].
        specialize (Hr p q Hp Hq). unfold in_range. apply andb_true_iff. split; [apply Z.leb_le; lia|apply Z.ltb_lt; lia]. }
      rewrite (Hf n) by lia. rewrite (Hf n') by lia. reflexivity. }
    assert (Hlog : norm_ok (log_norm_fixed K m) (Zfun false m n d D)).
    { destruct (biased_core K m false n d D Hc Hb) as (c & Ec & Hcok).
      unfold log_norm_fixed. rewrite Ec. cbn [rbind]. unfold lamb_of. rewrite He. cbn [rbind].
      apply (get_log_norm_model K m false n d D); try assumption. right; split; reflexivity. }
    pose proof (finish_ok K P L (log_norm_fixed K m) (fun _ => true) batch _ _ Ha Hlog ltac:(lra) ltac:(reflexivity)) as HF.
    unfold forward_fixed, embed. rewrite He. cbn [snd rbind]. rewrite EA. cbn [rbind].
    destruct (finish K (P, L) (log_norm_fixed K m) (fun _ => true)) as [T|e].
    - destruct HF as (_ & HT & H). exists T. split; [reflexivity|]. split; [exact HT|]. intros b Hb'.
      apply is_log_pos; [apply H, Hb'|]. intros Ez. apply Rmult_integral in Ez as [Ez|Ez].
      + apply (Hnz b Hb'), abs2_zero, Ez.
      + pose proof (Rinv_0_lt_compat _ HZ). lra.
    - exfalso. destruct HF as [_ [HZ0|(b & Hb' & Hz & _)]]; [lra|apply (Hnz b Hb' Hz)].
  Qed.
  (** What holds: with slim_eval every wrong length raises AssertionError (ValueError for a
      biased model); in the other modes, too long discrete inputs raise IndexError, and
      vector inputs of a wrong length raise RuntimeError unless one of the two lengths is 1.
      Missing: the short discrete inputs above and vector inputs when a length is 1. *)
  Theorem C23_wrong_length_partial (m : pmps K) (x : tin K) (slim par : bool) (batch n n' d D : nat) :
    shapes_fixed K m n d D -> pm_emb K m = None -> n' <> n -> 0 < batch -> wf_input x batch n' d ->
    (slim = true \/ match x with TLong _ => n < n' | TFloat _ => n <> 1 /\ n' <> 1 end) ->
    exists e, snd (forward_fixed K m x slim par) = Err e.
  Proof.
    intros Hsh He Hne Hbt Hx Hcase.
    destruct (shapes_get K false m n d D Hsh) as (Hd & HD & Hc & Hed & Hb).
    unfold forward_fixed, embed. rewrite He. cbn [snd rbind]. unfold amplitudes.
    destruct slim.
    - destruct (pm_bias K m); [eexists; reflexivity|].
      unfold slim_eval_fun.
      assert (Hsh' : tin_shp (tin_trans01 K (tin_fin K x)) = match x with TLong _ => [n'; batch] | TFloat _ => [n'; batch; d] end).
      { destruct x; cbn in *; [destruct Hx as [Hs _]; rewrite Hs|rewrite Hx]; reflexivity. }
      destruct (List.length (tin_shp (tin_fin K x)) <? 2); [eexists; reflexivity|]. cbv zeta. rewrite Hsh'.
      assert (N1 : ndim (tfin K (pm_core K m)) = 4) by (unfold ndim; cbn [tfin tmap shp]; rewrite Hc; reflexivity).
      rewrite N1.
      assert (N2 : nth 0 (shp (tfin K (pm_core K m))) 0 = n) by (cbn [tfin tmap shp]; rewrite Hc; reflexivity).
      rewrite N2.
      replace (nth 0 (match x with TLong _ => [n'; batch] | TFloat _ => [n'; batch; d] end) 0) with n' by (destruct x; reflexivity).
      assert (Hf : n =? n' = false) by (apply Nat.eqb_neq; lia). rewrite Hf. cbn [Nat.eqb orb].
      repeat match goal with |- context [assert_ ?b] => destruct b; cbn [assert_ rbind]; try (eexists; reflexivity) end.
    - destruct Hcase as [Hcase|Hcase]; [discriminate|].
      unfold get_mat_slices.
      assert (N1 : ndim (tfin K (pm_core K m)) = 4) by (unfold ndim; cbn [tfin tmap shp]; rewrite Hc; reflexivity).
      rewrite N1. destruct x as [ix|v]; cbn [tin_fin tin_shp].
      + destruct Hx as [Hs Hr]. rewrite Hs. cbn [List.length Nat.eqb orb assert_ rbind].
        unfold gather01. cbn [tfin tmap shp]. rewrite Hc.
        assert (Hf : forallb (fun i => (nth 1 i 0 <? n) && in_range d (get ix i)) (all_idx (shp ix)) = false).
        { destruct (forallb _ _) eqn:Ef; [|reflexivity]. exfalso. rewrite forallb_forall in Ef.
          specialize (Ef [0; n]). rewrite all_idx_spec, Hs in Ef. specialize (Ef ltac:(apply valid_2; lia)).
          apply andb_true_iff in Ef as [Ef _]. cbn [nth] in Ef. apply Nat.ltb_lt in Ef. lia. }
        rewrite Hf. eexists; reflexivity.
      + assert (Hvs : shp (tfin K v) = [batch; n'; d]) by exact Hx.
        rewrite Hvs. cbn [List.length Nat.eqb orb assert_ rbind].
        assert (Eerr : einsum (S := xn_ops K) "bti,tide->btde" [tfin K v; tfin K (pm_core K m)] = Err RuntimeError).
        { unfold einsum. change (parse_eins "bti,tide->btde") with
            ([["b"; "t"; "i"]; ["t"; "i"; "d"; "e"]]%char, ["b"; "t"; "d"; "e"]%char).
          cbn [add_ops]. cbn in Hx. cbn [tfin tmap shp]. rewrite Hx. cbn [add_labels elook Ascii.eqb Bool.eqb app].
          cbn [tfin tmap shp]. rewrite Hc. cbn [add_labels elook Ascii.eqb Bool.eqb app].
          assert (Hbd : bdim n' n = None).
          { unfold bdim. destruct Hcase as [H1 H2].
            destruct (Nat.eqb_spec n' n); [lia|]. destruct (Nat.eqb_spec n' 1); [lia|].
            destruct (Nat.eqb_spec n 1); [lia|]. reflexivity. }
          rewrite Hbd. reflexivity. }
        rewrite Eerr. eexists; reflexivity.
  Qed.
End P.

(** *** Non-vacuity: concrete models meeting the hypotheses above *)
Section Examples.
  Local Open Scope nat_scope.
  Definition pe_core4 : tensor R_num :=
    mkT [2; 2; 2; 2] (fun i => INR (1 + nth 0 i 0 + 2 * nth 1 i 0 + nth 2 i 0 * nth 3 i 0)).
  Definition pe_core3 : tensor R_num :=
    mkT [2; 2; 2] (fun i => INR (1 + 2 * nth 0 i 0 + nth 1 i 0 * nth 2 i 0)).
  Definition pe_edge : tensor R_num := mkT [2; 2] (fun i => INR (1 + nth 1 i 0)).
  Definition pe_bias : tensor R_num := mkT [2; 2] (fun i => INR (nth 0 i 0 + 3 * nth 1 i 0)).
  (** fixed-length, biased, and uniform models, and the batch of all four words *)
  Definition pe_m : pmps R_num := mkP R_num pe_core4 pe_edge None None.
  Definition pe_mb : pmps R_num := mkP R_num pe_core4 pe_edge (Some pe_bias) None.
  Definition pe_u : pmps R_num := mkP R_num pe_core3 pe_edge (Some pe_bias) None.
  Definition pe_all : tensor Z := mkT [4; 2] (fun i => if nth 1 i 0 =? 0 then Z.of_nat (nth 0 i 0 / 2) else Z.of_nat (nth 0 i 0 mod 2)).

  Lemma pe_wf : wf_input (K := R_num) (TLong pe_all) 4 2 2.
  Proof.
    split; [reflexivity|]. intros b t Hb Ht. destruct b as [|[|[|[|b]]]]; [| | | |lia];
      (destruct t as [|[|t]]; [| |lia]); cbn; lia.
  Qed.
  Example C09_hyps_met :
    shapes_fixed R_num pe_m 2 2 2 /\ shapes_fixed R_num pe_mb 2 2 2 /\ shapes_unif R_num pe_u 2 2 /\
    wf_input (K := R_num) (TLong pe_all) 4 2 2 /\
    Permutation (map (row_letters pe_all 2) (seq 0 4)) (words 2 2).
  Proof.
    split; [cbn; repeat split; lia|]. split; [cbn; repeat split; lia|]. split; [cbn; repeat split; lia|].
    split; [apply pe_wf|]. cbn. apply Permutation_refl.
  Qed.
  Ltac psi_calc :=
    unfold psi, row_amp, amplitude, sandwich, pe_m, pe_mb, pe_u, pe_core4, pe_core3, pe_edge, pe_bias, edge_at, row_letters,
      letter_site, entry, bias_at, mmul;
    cbn -[INR]; unfold mmul; cbn -[INR]; rewrite !INR_IZR_INZ; cbn;
    try change (Pos.to_nat 1) with 1; cbn; try lra.
  Example C08_hyps_met : forall b, b < 4 -> psi R_num false pe_mb 2 2 2 (TLong pe_all) b <> 0%R.
  Proof. intros [|[|[|[|b]]]] Hb; [| | | |lia]; psi_calc. Qed.
  Example C10_hyps_met : forall b, b < 4 -> psi R_num true pe_u 2 2 2 (TLong pe_all) b <> 0%R.
  Proof. intros [|[|[|[|b]]]] Hb; [| | | |lia]; psi_calc. Qed.
  (** so these calls do return, and C09 / C10 / C12 / C13 / C15 apply to them *)
  Example C09_returns : exists T, snd (forward_fixed R_num pe_mb (TLong pe_all) false true) = Ok T.
  Proof.
    destruct (C08_forward_born R_num pe_mb pe_all false true 4 2 2 2) as (T & E & _); try (exists T; exact E).
    - apply C09_hyps_met. - reflexivity. - apply pe_wf. - lia. - discriminate. - apply C08_hyps_met.
  Qed.
  Example C15_returns : exists l, snd (loss_fixed R_num pe_mb (TLong pe_all) false true) = Ok (XFin l).
  Proof.
    destruct (C08_forward_born R_num pe_mb pe_all false true 4 2 2 2) as (T & E & HT & H).
    - apply C09_hyps_met. - reflexivity. - apply pe_wf. - lia. - discriminate. - apply C08_hyps_met.
    - eexists. refine (C15_loss_mean R_num false pe_mb (TLong pe_all) false true 4 T _ E HT _ _); [lia|exact H].
  Qed.

  (** C11: a model on the alphabet {0,1} that gives the word (1) amplitude zero and (0)
      amplitude one: the batch [(0),(1)] makes the default mode raise AssertionError, so
      the good row (0) is lost too; slim_eval returns (log 1, -inf). *)
  Definition pe_z : pmps R_num :=
    mkP R_num (mkT [1; 2; 1; 1] (fun i => if nth 1 i 0 =? 0 then 1%R else 0%R)) (mkT [2; 1] (fun _ => 1%R)) None None.
  Definition pe_zx : tensor Z := mkT [2; 1] (fun i => Z.of_nat (nth 0 i 0)).
  Lemma pe_zwf : wf_input (K := R_num) (TLong pe_zx) 2 1 2.
  Proof. split; [reflexivity|]. intros b t Hb Ht. cbn. lia. Qed.
  Lemma pe_zs : shapes_fixed R_num pe_z 1 2 1.
  Proof. cbn. repeat split; lia. Qed.
  Theorem C11_refuted_witness :
    psi R_num false pe_z 1 2 1 (TLong pe_zx) 0 = 1%R /\ psi R_num false pe_z 1 2 1 (TLong pe_zx) 1 = 0%R /\
    snd (forward_fixed R_num pe_z (TLong pe_zx) false false) = Err AssertionError.
  Proof.
    assert (H0 : psi R_num false pe_z 1 2 1 (TLong pe_zx) 0 = 1%R).
    { unfold psi, row_amp, amplitude, sandwich, pe_z, pe_zx. cbn. unfold edge_at, letter_site, entry, bias_at; cbn; try change (Pos.to_nat 1) with 1; cbn; ring. }
    assert (H1 : psi R_num false pe_z 1 2 1 (TLong pe_zx) 1 = 0%R).
    { unfold psi, row_amp, amplitude, sandwich, pe_z, pe_zx. cbn. unfold edge_at, letter_site, entry, bias_at; cbn; try change (Pos.to_nat 1) with 1; cbn; ring. }
    split; [exact H0|]. split; [exact H1|].
    apply (C11_zero_amplitude_refuted R_num pe_z pe_zx 2 1 2 1 1); [apply pe_zs|reflexivity|apply pe_zwf|lia|exact H1].
  Qed.
  (** a word whose zero only appears in the last contraction: edge vectors (1,0) and (0,1),
      D = 2, identity core on letter 0, all-ones core on letter 1 *)
  Definition pe_z2 : pmps R_num :=
    mkP R_num (mkT [1; 2; 2; 2] (fun i => if nth 1 i 0 =? 0 then (if nth 2 i 0 =? nth 3 i 0 then 1%R else 0%R) else 1%R))
      (mkT [2; 2] (fun i => if nth 0 i 0 =? nth 1 i 0 then 1%R else 0%R)) None None.
  Example C11_slim_returns_met :
    psi R_num false pe_z2 1 2 2 (TLong pe_zx) 0 = 0%R /\
    exists T, snd (forward_fixed R_num pe_z2 (TLong pe_zx) true false) = Ok T /\ get T [0] = XNInf.
  Proof.
    assert (Hs : shapes_fixed R_num pe_z2 1 2 2) by (cbn; repeat split; lia).
    assert (H0 : psi R_num false pe_z2 1 2 2 (TLong pe_zx) 0 = 0%R).
    { unfold psi, row_amp, amplitude, sandwich, pe_z2, pe_zx. cbn. unfold mmul; cbn.
      unfold edge_at, letter_site, entry, bias_at; cbn; try change (Pos.to_nat 1) with 1; cbn; ring. }
    assert (H1 : psi R_num false pe_z2 1 2 2 (TLong pe_zx) 1 = 1%R).
    { unfold psi, row_amp, amplitude, sandwich, pe_z2, pe_zx. cbn. unfold mmul; cbn.
      unfold edge_at, letter_site, entry, bias_at; cbn; try change (Pos.to_nat 1) with 1; cbn; ring. }
    split; [exact H0|].
    destruct (C11_slim_returns R_num pe_z2 (TLong pe_zx) false 2 1 2 2) as [T ET];
      [exact Hs|reflexivity|reflexivity|apply pe_zwf| | |].
    - apply (psi_Z_pos R_num false pe_z2 pe_zx 2 1 2 2 1 pe_zwf); [lia|]. intros E. rewrite H1 in E. cbn in E. lra.
    - intros b Hb. exists 0. split; [lia|]. destruct b as [|[|b]]; [| |lia];
        unfold vmul, pe_z2, pe_zx; cbn; unfold mmul; cbn; unfold edge_at, letter_site, entry, bias_at; cbn; try change (Pos.to_nat 1) with 1; cbn; lra.
    - exists T. split; [exact ET|].
      pose proof (C11_zero_amplitude_partial R_num false pe_z2 (TLong pe_zx) true false 2 1 2 2 Hs eq_refl pe_zwf
        ltac:(lia) ltac:(reflexivity)) as H.
      cbn [fwd] in H. rewrite ET in H. destruct H as [_ H]. apply (H 0); [lia|exact H0].
  Qed.
  (** C23: length-1 inputs to the length-2 model above *)
  Theorem C23_refuted_witness : exists T, snd (forward_fixed R_num pe_m (TLong pe_zx) false false) = Ok T.
  Proof.
    destruct (C23_short_input_refuted R_num pe_m pe_zx false 2 2 1 2 2) as (T & E & _); [| | | | | | |exists T; exact E].
    - apply C09_hyps_met. - reflexivity. - lia. - lia. - apply pe_zwf.
    - apply (psi_Z_pos R_num false pe_m pe_all 4 2 2 2 0 pe_wf); [lia|]. psi_calc.
    - intros [|[|b]] Hb; [| |lia]; unfold truncate; psi_calc.
  Qed.
End Examples.

Print Assumptions C08_forward_born.
Print Assumptions C08_forward_born_vectors.
Print Assumptions C09_normalised.
Print Assumptions C10_forward_born.
Print Assumptions C10_normalised.
Print Assumptions C11_zero_amplitude_refuted.
Print Assumptions C11_zero_amplitude_partial.
Print Assumptions C11_slim_returns.
Print Assumptions C12_batch_independence.
Print Assumptions C14_override_refuted.
Print Assumptions C14_same_value_partial.
Print Assumptions C15_loss_mean.
Print Assumptions C15_loss_infinite.
Print Assumptions C15_loss_raises.
Print Assumptions C23_short_input_refuted.
Print Assumptions C23_wrong_length_partial.
