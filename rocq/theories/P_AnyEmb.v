(** * P_AnyEmb: C94, the outcome of ProbMPS.forward and ProbUnifMPS.forward with an embedding, for
    every input tensor (torchmps/prob_mps.py:148-204, :374-433, torchmps/embeddings.py). *)
From Coq Require Import Reals Lra Classical_Prop.
From Verif Require Import Base Scalars Tensor Utils2 MpsBase Embeddings ProbMps Spec MatSpec ModelSpec EmbSpec InputSpec LinAlg
  EinsumProofs LogNorm Utils2Proofs MatFinal SlimProofs ProbProofs EmbProofs P_Prob P_Emb P_Emb2 P_EmbExact P_ZeroExact P_AnyInput.

Section P.
  Variable K : numfield.
  Add Ring KrAE : (rth K).

  (** The verdict on the input [x] of a model whose embedding turns it into the tensor [v]:
      ProbUnifMPS reads two sizes off [x] itself; everything else looks at [v]. *)
  Definition embedded_rejection (uniform bias slim : bool) (n d : nat) (x : tin K) (v : tensor K) : option exn :=
    if uniform && (x_modes x <? 2) then Some ValueError else rejection uniform bias slim n d (TFloat v).
  (** What an accepted input gives: [Zn] the normaliser, [v] the embedded input *)
  Definition embedded_outcome (uniform : bool) (m : pmps K) (n d D : nat) (v : tensor K) (slim par : bool) (Zn : R)
    (r : res (tensor xreal)) : Prop :=
    let rows := x_rows (TFloat v) in
    let amp := used_amp (pm_core K m) (pm_edge K m) (pm_bias K m) uniform n d D (TFloat v) in
    let lost := used_lost (pm_core K m) (pm_edge K m) (pm_bias K m) uniform n d D (TFloat v) slim par in
    match r with
    | Ok T => (0 < Zn)%R /\ (forall b, b < rows -> ~ lost b) /\ shp T = [rows] /\
        forall b, b < rows ->
          (amp b = s0 -> get T [b] = XNInf) /\ (amp b <> s0 -> get T [b] = XFin (ln (abs2 (amp b) / Zn)))
    | Err er => er = AssertionError /\ (Zn = 0%R \/ exists b, b < rows /\ lost b)
    end.

  Lemma forward_emb_any (uniform : bool) (m : pmps K) (e e' : embedding K) (x : tin K) (v : tensor K) l Lm
      (slim par : bool) (n d D M : nat) wt phi :
    shapes_of K uniform m n d D -> pm_emb K m = Some e -> emb_forward K e x = (e', Ok v) ->
    es_lamb K e' = Some l -> lamb_ok K (Some l) d Lm -> lamb_sum K Lm d M wt phi -> (forall q, q < M -> (0 <= wt q)%R) ->
    (uniform = true -> 2 <= x_modes x /\ 2 <= x_modes (TFloat v) /\ x_rows x = x_rows (TFloat v)) ->
    (slim = true -> uniform = true -> 0 < x_len (TFloat v)) ->
    match rejection uniform (has_bias K m) slim n d (TFloat v) with
    | Some er => snd (fwd K uniform m x slim par) = Err er
    | None => embedded_outcome uniform m n d D v slim par
        (emb_Z K m uniform (if uniform then x_len x else n) d D M wt phi) (snd (fwd K uniform m x slim par))
    end.
  Proof.
    intros Hsh Hemb Hfw Hl Hlok Hls Hw Hu Hl0.
    destruct (shapes_get K _ _ _ _ _ Hsh) as (Hd & HD & Hc & He & Hb).
    set (m' := with_emb K m e').
    pose proof (amplitudes_any K uniform m' (TFloat v) slim par n d D Hsh Hl0 (fun E => proj1 (proj2 (Hu E)))) as HA.
    change (has_bias K m') with (has_bias K m) in HA. cbn [m' with_emb pm_core pm_edge pm_bias] in HA.
    set (N := if uniform then x_len x else n).
    assert (Hc' : shp (pm_core K m) = (if uniform then [d; D; D] else [N; d; D; D])) by (unfold N; destruct uniform; exact Hc).
    destruct (biased_core K m' uniform N d D Hc' Hb) as (c & Ec & Hcok).
    set (Zn := emb_Z K m uniform N d D M wt phi).
    assert (HZ0 : (0 <= Zn)%R) by (apply Zw_nonneg; exact Hw).
    assert (Hnorm : forall len, len = Some (Z.of_nat N) \/ (len = None /\ uniform = false) ->
              norm_ok (get_log_norm K c (tfin K (pm_edge K m')) len (Some l)) Zn).
    { intros len Hlen.
      apply (get_log_norm_ok K c (tfin K (pm_edge K m')) len (Some l) uniform N d D Lm M wt phi _
        (edge_at (pm_edge K m) 0) (edge_at (pm_edge K m) 1) (norm_site K d m uniform phi) Hd HD Hcok); try reflexivity; try assumption. }
    assert (Hf : exists lnr check, snd (fwd K uniform m x slim par) =
       (let* psi := amplitudes K uniform m' (TFloat v) slim par in finish K psi lnr check) /\
       norm_ok lnr Zn /\ forall up : tensor xreal, shp up = [x_rows (TFloat v)] -> check up = true).
    { destruct uniform; cbn [fwd].
      - destruct (Hu eq_refl) as (Hm2 & _ & Hrows).
        assert (Hxs : exists r, tin_shp x = x_rows x :: x_len x :: r).
        { unfold x_modes, x_rows, x_len in *. destruct (tin_shp x) as [|a [|b r]]; cbn in *; try lia. eauto. }
        destruct Hxs as (r & Hxs). unfold forward_unif. rewrite Hxs. unfold embed. rewrite Hemb, Hfw. cbn [snd rbind]. fold m'.
        eexists. eexists. split; [reflexivity|]. split.
        + unfold log_norm_unif. rewrite Ec. cbn [rbind]. unfold lamb_of. cbn [m' with_emb pm_emb]. rewrite Hl. cbn [rbind].
          apply Hnorm. left; reflexivity.
        + intros up Hup. rewrite Hup, Hrows. apply list_eqb_refl.
      - unfold forward_fixed, embed. rewrite Hemb, Hfw. cbn [snd rbind]. fold m'.
        eexists. eexists. split; [reflexivity|]. split.
        + unfold log_norm_fixed. rewrite Ec. cbn [rbind]. unfold lamb_of. cbn [m' with_emb pm_emb]. rewrite Hl. cbn [rbind].
          apply Hnorm. right; split; reflexivity.
        + reflexivity. }
    destruct Hf as (lnr & check & Hfw' & Hno & Hck). rewrite Hfw'.
    destruct (rejection uniform (has_bias K m) slim n d (TFloat v)) as [er|]; [rewrite HA; reflexivity|].
    destruct HA as (P & L & E & Ha & Hlost). rewrite E. cbn [rbind]. unfold embedded_outcome. cbv zeta.
    set (amp := used_amp (pm_core K m) (pm_edge K m) (pm_bias K m) uniform n d D (TFloat v)) in *.
    set (lost := used_lost (pm_core K m) (pm_edge K m) (pm_bias K m) uniform n d D (TFloat v) slim par) in *.
    set (rows := x_rows (TFloat v)) in *.
    apply (exact_match _ rows Zn lost (fun T => shp T = [rows] /\ forall b, b < rows ->
              (amp b = s0 -> get T [b] = XNInf) /\ (amp b <> s0 -> get T [b] = XFin (ln (abs2 (amp b) / Zn)))) HZ0).
    - intros T ET. pose proof (finish_ok K P L lnr check rows amp Zn Ha Hno HZ0 Hck) as HF. rewrite ET in HF.
      destruct HF as (HZ' & HT & H). split; [exact HT|]. intros b Hb'. specialize (H b Hb'). split.
      + intros Hz. rewrite Hz, abs2_s0 in H. unfold Rdiv in H. rewrite Rmult_0_l in H.
        destruct H as [[H _]|[_ H]]; [lra|exact H].
      + intros Hz. apply (is_log_pos _ _ H). intros E'.
        apply Rmult_integral in E' as [E'|E']; [apply Hz, abs2_zero, E'|]. pose proof (Rinv_0_lt_compat _ HZ'). lra.
    - destruct (finish_exact K P L lnr check rows amp Zn Ha Hno HZ0 Hck) as (H1 & H2 & H3).
      split; [|split; [|exact H3]].
      + intros HZ' Hlo. apply H1; [exact HZ'|]. intros b Hb'. apply (Hlost b Hb'), Hlo, Hb'.
      + intros (b & Hb' & Hz). apply H2. exists b. split; [exact Hb'|]. apply (Hlost b Hb'), Hz.
  Qed.

  (** C94 for an embedding whose Lambda matrix is the Gram matrix of the vectors phi, and every
      input whose rows the embedding function keeps *)
  Lemma any_embedded (uniform : bool) (m : pmps K) (e : embedding K) f dom (x : tin K) raw
      (slim par : bool) (n d D M : nat) wt phi :
    shapes_of K uniform m n d D -> pm_emb K m = Some e -> built K e f dom ->
    raw_lambda K num_points_default f dom = Ok raw -> shp raw = [d; d] ->
    (forall k k', k < d -> k' < d -> get raw [k; k'] = gram_matrix M wt phi k k') ->
    (forall q, q < M -> (0 <= wt q)%R) ->
    (uniform = true -> 2 <= x_modes x -> 2 <= x_modes (TFloat (f x)) /\ x_rows x = x_rows (TFloat (f x))) ->
    (slim = true -> uniform = true -> 2 <= x_modes x -> 0 < x_len (TFloat (f x))) ->
    match embedded_rejection uniform (has_bias K m) slim n d x (f x) with
    | Some er => snd (fwd K uniform m x slim par) = Err er
    | None => exists Zn, normaliser K uniform m (if uniform then x_len x else n) d D M wt phi Zn /\
        embedded_outcome uniform m n d D (f x) slim par Zn (snd (fwd K uniform m x slim par))
    end.
  Proof.
    intros Hsh He Hb Er Hrs Hrg Hw Hu Hl0. unfold embedded_rejection.
    destruct (uniform && (x_modes x <? 2)) eqn:E0.
    { apply andb_true_iff in E0 as [-> E0]. apply Nat.ltb_lt in E0.
      cbn [fwd]. unfold forward_unif. unfold x_modes in E0. destruct (tin_shp x) as [|a [|b l]]; cbn in E0; try lia; reflexivity. }
    assert (Hu2 : uniform = true -> 2 <= x_modes x).
    { intros ->. cbn [andb] in E0. apply Nat.ltb_ge. exact E0. }
    destruct (shapes_get K uniform m n d D Hsh) as (Hd & HD & _).
    destruct (emb_forward_ok K e f _ x raw d Hb Er Hrs) as (e' & Ee & Hl & _).
    assert (Hu' : uniform = true -> 2 <= x_modes x /\ 2 <= x_modes (TFloat (f x)) /\ x_rows x = x_rows (TFloat (f x))).
    { intros E. split; [exact (Hu2 E)|exact (Hu E (Hu2 E))]. }
    assert (Hl' : slim = true -> uniform = true -> 0 < x_len (TFloat (f x))) by (intros Es Eu; exact (Hl0 Es Eu (Hu2 Eu))).
    destruct (simplify_exact K raw d M wt phi Hd Hrs Hrg) as [[Hv Hlo]|[Hv (lam & Hlam & Hlo)]].
    - pose proof (forward_emb_any uniform m e e' x (f x) _ _ slim par n d D M wt phi Hsh He Ee Hl Hlo
        (lamb_sum_gram K M wt phi d) Hw Hu' Hl') as H.
      destruct (rejection _ _ _ _ _ _); [exact H|].
      eexists. split; [left; split; [exact Hv|reflexivity]|exact H].
    - pose proof (forward_emb_any uniform m e e' x (f x) _ _ slim par n d D d lam delta Hsh He Ee Hl Hlo
        (lamb_sum_diag K lam d) (used_nonneg K d _ lam Hd Hlam (fun k _ => component_weight_nonneg K M wt phi k Hw)) Hu' Hl') as H.
      rewrite emb_Z_delta in H.
      destruct (rejection _ _ _ _ _ _); [exact H|].
      eexists. split; [right; split; [exact Hv|]; exists lam; split; [exact Hlam|reflexivity]|exact H].
  Qed.

  (** C94, discrete domain {0..M-1}: every input tensor with letters in the domain, of any shape.
      For ProbUnifMPS with slim evaluation, sequences of length 0 are in C94_slim_empty. *)
  Theorem C94_discrete (uniform : bool) (m : pmps K) e f M d phi mn (ix : tensor Z) (slim par : bool) (n D : nat) :
    shapes_of K uniform m n d D -> pm_emb K m = Some e -> built K e f (mkDom false (INR M) mn) ->
    embeds_discrete f M d phi ->
    (forall i, valid (shp ix) i -> (0 <= get ix i < Z.of_nat M)%Z) ->
    let x := TLong ix : tin K in
    (slim = true -> uniform = true -> 2 <= x_modes x -> 0 < x_len x) ->
    match embedded_rejection uniform (has_bias K m) slim n d x (f x) with
    | Some er => snd (fwd K uniform m x slim par) = Err er
    | None => exists Zn, normaliser K uniform m (if uniform then x_len x else n) d D M (fun _ => 1%R) phi Zn /\
        embedded_outcome uniform m n d D (f x) slim par Zn (snd (fwd K uniform m x slim par))
    end.
  Proof.
    intros Hsh He Hb Hf Hr x Hl0.
    destruct (raw_lambda_discrete K f M d phi mn num_points_default Hf) as (raw & Er & Hrs & Hrg).
    destruct (Hf ix Hr) as [Hfs _].
    apply (any_embedded uniform m e f _ x raw slim par n d D M (fun _ => 1%R) phi Hsh He Hb Er Hrs Hrg); [intros; lra| |].
    - intros _ Hm. unfold x, x_modes, x_rows in *. cbn [tin_shp] in *. rewrite Hfs.
      destruct (shp ix) as [|a [|b l]]; cbn in *; try rewrite app_length; cbn; try lia.
    - intros Es Eu Hm. specialize (Hl0 Es Eu Hm). unfold x, x_modes, x_len in *. cbn [tin_shp] in *. rewrite Hfs.
      destruct (shp ix) as [|a [|b l]]; cbn in *; try lia.
  Qed.
  (** C94, the interval [a,b]: every real input tensor with values in it, of any shape *)
  Theorem C94_interval (uniform : bool) (m : pmps K) e f a b d phi (y : tensor R) (slim par : bool) (n D : nat) :
    (a < b)%R -> shapes_of K uniform m n d D -> pm_emb K m = Some e -> built K e f (mkDom true b (Some a)) ->
    embeds_interval f a b d phi ->
    (forall i, valid (shp y) i -> (a <= get y i <= b)%R) ->
    let x := TFloat (tmap (nofR K) y) : tin K in
    (slim = true -> uniform = true -> 2 <= x_modes x -> 0 < x_len x) ->
    match embedded_rejection uniform (has_bias K m) slim n d x (f x) with
    | Some er => snd (fwd K uniform m x slim par) = Err er
    | None => exists Zn, normaliser K uniform m (if uniform then x_len x else n) d D 1000
          (trap_weight 1000 (grid a b 1000)) (fun q => phi (grid a b 1000 q)) Zn /\
        embedded_outcome uniform m n d D (f x) slim par Zn (snd (fwd K uniform m x slim par))
    end.
  Proof.
    change 1000 with num_points_default.
    intros Hab Hsh He Hb Hf Hr x Hl0.
    assert (HN : 1 < num_points_default) by (apply Nat.ltb_lt; reflexivity).
    destruct (raw_lambda_interval K f a b d phi num_points_default Hab HN Hf) as (raw & Er & Hrs & Hrg).
    destruct (Hf y Hr) as [Hfs _].
    apply (any_embedded uniform m e f _ x raw slim par n d D num_points_default _ _ Hsh He Hb Er Hrs Hrg);
      [intros; apply trap_weight_nonneg; assumption| |].
    - intros _ Hm. unfold x, x_modes, x_rows in *. cbn [tin_shp tmap shp] in *. rewrite Hfs.
      destruct (shp y) as [|p [|q l]]; cbn in *; try rewrite app_length; cbn; try lia.
    - intros Es Eu Hm. specialize (Hl0 Es Eu Hm). unfold x, x_modes, x_len in *. cbn [tin_shp tmap shp] in *. rewrite Hfs.
      destruct (shp y) as [|p [|q l]]; cbn in *; try lia.
  Qed.

  (** C94, what this means for a batch of sequences of length n': only for a ProbMPS does the
      length matter, and length 1 (or a model of length 1) escapes its check. *)
  Definition length_verdict (uniform bias slim : bool) (n n' : nat) : option exn :=
    if slim && bias then Some ValueError
    else if uniform then None
    else if slim then if n' =? n then None else Some AssertionError
    else if fits n' n then None else Some RuntimeError.
  Lemma lengths_verdict (uniform bias slim : bool) (n d : nat) (x : tin K) (v : tensor K) (batch n' : nat) :
    tin_shp x = [batch; n'] -> shp v = [batch; n'; d] ->
    embedded_rejection uniform bias slim n d x v = length_verdict uniform bias slim n n'.
  Proof.
    intros Hx Hv. unfold embedded_rejection, rejection, unreadable, length_verdict, x_modes, x_len, x_feat. cbn [tin_shp].
    rewrite Hx, Hv. cbn [List.length nth Nat.ltb Nat.leb Nat.eqb orb negb andb]. rewrite ?Nat.eqb_refl, ?andb_false_r, ?andb_true_r.
    assert (Hf : fits d d = true) by (unfold fits; rewrite Nat.eqb_refl; reflexivity).
    rewrite Hf. destruct uniform, bias, slim; cbn [andb orb negb]; rewrite ?andb_false_r, ?andb_true_r;
      try reflexivity; destruct (Nat.eqb_spec n' n) as [->|Hne]; cbn [negb]; rewrite ?Hf; try reflexivity;
      unfold fits; rewrite ?Nat.eqb_refl; reflexivity.
  Qed.
  (** the amplitude of an accepted row is that of its sequence of embedded values; one value given to
      a ProbMPS of length n counts as n times this value *)
  Lemma row_amplitude (uniform : bool) (m : pmps K) {V} (d0 : V) (n d D : nat) (vals : nat -> nat -> V) (vect : V -> nat -> K)
      (v : tensor K) (batch n' b : nat) :
    shp v = [batch; n'; d] -> b < batch ->
    (forall t k, t < n' -> k < d -> get v [b; t; k] = vect (vals b t) k) ->
    let row := if uniform then map (vals b) (seq 0 n')
               else if n' =? 1 then repeat (vals b 0) n else map (vals b) (seq 0 n') in
    used_amp (pm_core K m) (pm_edge K m) (pm_bias K m) uniform n d D (TFloat v) b =
    amplitude D (edge_at (pm_edge K m) 0) (edge_at (pm_edge K m) 1)
      (fun t y => vec_site d (pm_core K m) uniform (pm_bias K m) (at1 n t) (vect y)) row.
  Proof.
    intros Hv Hb Hg row.
    assert (Hlen : x_len (TFloat v) = n') by (unfold x_len; cbn [tin_shp]; rewrite Hv; reflexivity).
    assert (Hft : x_feat (TFloat v) = d) by (unfold x_feat; cbn [tin_shp]; rewrite Hv; reflexivity).
    set (N := used_len uniform n (TFloat v)).
    assert (HN : N = if uniform then n' else if n' =? 1 then n else n').
    { unfold N, used_len. rewrite Hlen. reflexivity. }
    assert (Hrow : List.length row = N).
    { rewrite HN. unfold row. destruct uniform; [|destruct (n' =? 1)]; rewrite ?map_length, ?seq_length, ?repeat_length; reflexivity. }
    assert (Hrown : forall t, t < N -> nth t row d0 = vals b (if uniform then t else at1 n' t)).
    { intros t Ht. rewrite HN in Ht. unfold row, at1. destruct uniform; [|destruct (Nat.eqb_spec n' 1)].
      - rewrite (nth_indep _ d0 (vals b 0)) by (rewrite map_length, seq_length; exact Ht). rewrite (map_nth (vals b)), seq_nth by exact Ht. reflexivity.
      - rewrite (nth_indep _ d0 (vals b 0)) by (rewrite repeat_length; exact Ht). rewrite nth_repeat. reflexivity.
      - rewrite (nth_indep _ d0 (vals b 0)) by (rewrite map_length, seq_length; exact Ht). rewrite (map_nth (vals b)), seq_nth by exact Ht. reflexivity. }
    unfold used_amp, amplitude. apply sandwich_ext; [reflexivity|reflexivity|].
    intros i j Hi Hj. fold N.
    assert (Hs : forall (rw : list V) s, sites D (fun t y => vec_site d (pm_core K m) uniform (pm_bias K m) (at1 n t) (vect y)) s rw =
       map (fun t => (D, vec_site d (pm_core K m) uniform (pm_bias K m) (at1 n t) (vect (nth (t - s) rw d0)))) (seq s (List.length rw))).
    { induction rw as [|y rw IH]; intros s; [reflexivity|]. cbn [sites List.length seq map]. rewrite Nat.sub_diag. cbn [nth]. f_equal.
      rewrite IH. apply map_ext_in. intros t Ht. apply in_seq in Ht. f_equal. replace (t - s) with (Datatypes.S (t - Datatypes.S s)) by lia. reflexivity. }
    rewrite Hs, Hrow. unfold used_row. fold N.
    apply (fchain_ext K D N (fun t i j => sadd (used_site (pm_core K m) uniform n d (TFloat v) b t i j) (bias_at (pm_bias K m) i j))
      (fun t => vec_site d (pm_core K m) uniform (pm_bias K m) (at1 n t) (vect (nth (t - 0) row d0)))); [|exact Hi|exact Hj].
    intros t p q Ht Hp Hq. rewrite Nat.sub_0_r, Hrown by exact Ht. unfold vec_site. f_equal. cbn [used_site]. rewrite Hft, Hlen.
    replace (if d =? 1 then d else d) with d by (destruct (d =? 1); reflexivity).
    apply bsum_ext. intros k Hk.
    assert (Hkk : at1 d k = k) by (unfold at1; destruct (Nat.eqb_spec d 1); lia).
    assert (Ht1 : at1 n' t < n' \/ n' = 0 /\ t < N).
    { unfold at1. destruct (Nat.eqb_spec n' 1); [lia|]. destruct (Nat.eq_dec n' 0); [right; auto|].
      left. rewrite HN in Ht. destruct uniform; lia. }
    assert (Hn0 : n' <> 0).
    { intros E. rewrite HN, E in Ht. cbn in Ht. destruct uniform; lia. }
    destruct Ht1 as [Ht1|[E _]]; [|contradiction]. rewrite Hkk, Hg by assumption. f_equal.
    - destruct uniform; [|reflexivity]. unfold at1. destruct (Nat.eqb_spec n' 1); [|reflexivity]. rewrite HN in Ht. replace t with 0 by lia. reflexivity.
  Qed.

  (** the sequence of values that a row of n' values stands for: one value given to a ProbMPS of length n counts as n times it *)
  Definition row_read {V} (uniform : bool) (n n' : nat) (vals : nat -> V) : list V :=
    if uniform then map vals (seq 0 n') else if n' =? 1 then repeat (vals 0) n else map vals (seq 0 n').
  (** what a batch of sequences of length n' gives: rejected according to the length, or one value per sequence
      (the only core of a ProbMPS of length 1 serves every position) *)
  Definition rows_outcome {V} (uniform : bool) (m : pmps K) (slim : bool) (n d D M : nat) wt phi
      (batch n' : nat) (vals : nat -> nat -> V) (vect : V -> nat -> K) (r : res (tensor xreal)) : Prop :=
    match length_verdict uniform (has_bias K m) slim n n' with
    | Some er => r = Err er
    | None => exists Zn, normaliser K uniform m (if uniform then n' else n) d D M wt phi Zn /\
        match r with
        | Ok T => (0 < Zn)%R /\ shp T = [batch] /\ forall b, b < batch ->
            let amp := amplitude D (edge_at (pm_edge K m) 0) (edge_at (pm_edge K m) 1)
              (fun t y => vec_site d (pm_core K m) uniform (pm_bias K m) (if n =? 1 then 0 else t) (vect y)) (row_read uniform n n' (vals b)) in
            (amp = s0 -> get T [b] = XNInf) /\ (amp <> s0 -> get T [b] = XFin (ln (abs2 amp / Zn)))
        | Err er => er = AssertionError
        end
    end.
  Lemma rows_of {V} (d0 : V) (uniform : bool) (m : pmps K) (slim par : bool) (n d D M : nat) wt phi (x : tin K) (v : tensor K)
      (batch n' : nat) (vals : nat -> nat -> V) (vect : V -> nat -> K) (r : res (tensor xreal)) :
    tin_shp x = [batch; n'] -> shp v = [batch; n'; d] ->
    (forall b t k, b < batch -> t < n' -> k < d -> get v [b; t; k] = vect (vals b t) k) ->
    match embedded_rejection uniform (has_bias K m) slim n d x v with
    | Some er => r = Err er
    | None => exists Zn, normaliser K uniform m (if uniform then x_len x else n) d D M wt phi Zn /\ embedded_outcome uniform m n d D v slim par Zn r
    end -> rows_outcome uniform m slim n d D M wt phi batch n' vals vect r.
  Proof.
    intros Hx Hv Hg H. rewrite (lengths_verdict uniform (has_bias K m) slim n d x v batch n' Hx Hv) in H. unfold rows_outcome.
    destruct (length_verdict uniform (has_bias K m) slim n n') as [er|] eqn:El; [exact H|]. destruct H as (Zn & H1 & H2). exists Zn.
    assert (Hxl : x_len x = n') by (unfold x_len; rewrite Hx; reflexivity). rewrite Hxl in H1. split; [exact H1|].
    unfold embedded_outcome in H2. cbv zeta in H2.
    assert (Hr : x_rows (TFloat v) = batch) by (unfold x_rows; cbn [tin_shp]; rewrite Hv; reflexivity). rewrite Hr in H2.
    destruct r as [T|er]; [|exact (proj1 H2)]. destruct H2 as (HZ & _ & HT & H2). split; [exact HZ|]. split; [exact HT|]. intros b Hb. specialize (H2 b Hb).
    rewrite (row_amplitude uniform m d0 n d D vals vect v batch n' b Hv Hb (fun t k => Hg b t k Hb)) in H2. exact H2.
  Qed.
  (** C94 for batches of sequences: discrete domain *)
  Theorem C94_discrete_rows (uniform : bool) (m : pmps K) e f M d phi mn (ix : tensor Z) (slim par : bool) (n D batch n' : nat) :
    shapes_of K uniform m n d D -> pm_emb K m = Some e -> built K e f (mkDom false (INR M) mn) -> embeds_discrete f M d phi ->
    shp ix = [batch; n'] -> (forall b t, b < batch -> t < n' -> (0 <= get ix [b; t] < Z.of_nat M)%Z) ->
    (slim = true -> uniform = true -> 0 < n') ->
    rows_outcome uniform m slim n d D M (fun _ => 1%R) phi batch n' (fun b t => Z.to_nat (get ix [b; t])) phi (snd (fwd K uniform m (TLong ix) slim par)).
  Proof.
    intros Hsh He Hb Hf Hs Hr Hl.
    assert (Hr' : forall i, valid (shp ix) i -> (0 <= get ix i < Z.of_nat M)%Z).
    { intros i Hi. rewrite Hs in Hi. apply valid_cons in Hi as (b & r & -> & Hb' & Hi). apply valid_cons in Hi as (t & r' & -> & Ht & Hi). destruct r'; [|inversion Hi]. apply Hr; assumption. }
    destruct (Hf ix Hr') as [Hfs Hfg]. rewrite Hs in Hfs, Hfg.
    apply (rows_of 0 uniform m slim par n d D M _ phi (TLong ix) (f (TLong ix))); [exact Hs|exact Hfs| |].
    - intros b t k Hb' Ht Hk. apply (Hfg [b; t] k); [repeat constructor; assumption|exact Hk].
    - apply (C94_discrete uniform m e f M d phi mn ix slim par n D Hsh He Hb Hf Hr'). intros E1 E2 _. unfold x_len. cbn [tin_shp]. rewrite Hs. exact (Hl E1 E2).
  Qed.
  (** C94 for batches of sequences: the interval [a,b] *)
  Theorem C94_interval_rows (uniform : bool) (m : pmps K) e f a b d phi (y : tensor R) (slim par : bool) (n D batch n' : nat) :
    (a < b)%R -> shapes_of K uniform m n d D -> pm_emb K m = Some e -> built K e f (mkDom true b (Some a)) -> embeds_interval f a b d phi ->
    shp y = [batch; n'] -> (forall p t, p < batch -> t < n' -> (a <= get y [p; t] <= b)%R) ->
    (slim = true -> uniform = true -> 0 < n') ->
    rows_outcome uniform m slim n d D 1000 (trap_weight 1000 (grid a b 1000)) (fun q => phi (grid a b 1000 q)) batch n'
      (fun p t => get y [p; t]) phi (snd (fwd K uniform m (TFloat (tmap (nofR K) y)) slim par)).
  Proof.
    change 1000 with num_points_default. intros Hab Hsh He Hb Hf Hs Hr Hl.
    assert (Hr' : forall i, valid (shp y) i -> (a <= get y i <= b)%R).
    { intros i Hi. rewrite Hs in Hi. apply valid_cons in Hi as (p & r & -> & Hb' & Hi). apply valid_cons in Hi as (t & r' & -> & Ht & Hi). destruct r'; [|inversion Hi]. apply Hr; assumption. }
    destruct (Hf y Hr') as [Hfs Hfg]. rewrite Hs in Hfs, Hfg.
    apply (rows_of 0%R uniform m slim par n d D num_points_default _ _ (TFloat (tmap (nofR K) y)) (f (TFloat (tmap (nofR K) y)))); [exact Hs|exact Hfs| |].
    - intros p t k Hb' Ht Hk. apply (Hfg [p; t] k); [repeat constructor; assumption|exact Hk].
    - apply (C94_interval uniform m e f a b d phi y slim par n D Hab Hsh He Hb Hf Hr'). intros E1 E2 _. unfold x_len. cbn [tin_shp tmap shp]. rewrite Hs. exact (Hl E1 E2).
  Qed.

  (** *** slim evaluation of sequences of length 0 (ProbUnifMPS only) *)
  Definition ends_product (m : pmps K) (D : nat) : K :=
    bsum D (fun i => smul (get (pm_edge K m) [0; i]) (get (pm_edge K m) [1; i])).
  Lemma slim_empty (x : tin K) (m : pmps K) (d D : nat) :
    shp (pm_core K m) = [d; D; D] -> shp (pm_edge K m) = [2; D] -> pm_bias K m = None ->
    x_len x = 0 -> x_modes x = 2 \/ (x_modes x = 3 /\ x_feat x = d) ->
    (x_rows x = 1 -> exists P L, amplitudes K true m x true true = Ok (P, L) /\ shp P = [1] /\ shp L = [1] /\
       get L [0] = XFin 0 /\ get P [0] = Fin (ends_product m D)) /\
    (x_rows x <> 1 -> amplitudes K true m x true true = Err AssertionError).
  Proof.
    intros Hc He Hb Hl Hm. unfold amplitudes. rewrite Hb.
    assert (Hsh : tin_shp (tin_trans01 K (tin_fin K x)) = if x_modes x =? 2 then [0; x_rows x] else [0; x_rows x; d]).
    { destruct Hm as [Hm|[Hm Hf]]; rewrite Hm; cbn [Nat.eqb].
      - pose proof (modes2 K x Hm) as Hs. rewrite Hl in Hs. destruct x; cbn [tin_fin tin_trans01 tin_shp tfin tmap trans01 shp swap01] in *; rewrite Hs; reflexivity.
      - pose proof (modes3 K x Hm) as Hs. rewrite Hl, Hf in Hs. destruct x; cbn [tin_fin tin_trans01 tin_shp tfin tmap trans01 shp swap01] in *; rewrite Hs; reflexivity. }
    unfold slim_eval_fun.
    assert (Hl2 : List.length (tin_shp (tin_fin K x)) <? 2 = false).
    { rewrite fin_shp. fold (x_modes x). destruct Hm as [->|[-> _]]; reflexivity. }
    rewrite Hl2. cbv zeta. rewrite Hsh.
    assert (Hcd : ndim (tfin K (pm_core K m)) = 3) by (unfold ndim; cbn [tfin tmap shp]; rewrite Hc; reflexivity).
    assert (Hcs : shp (tfin K (pm_core K m)) = [d; D; D]) by exact Hc.
    assert (Hes : shp (tfin K (pm_edge K m)) = [2; D]) by exact He.
    assert (Hed : ndim (tfin K (pm_edge K m)) = 2) by (unfold ndim; rewrite Hes; reflexivity).
    rewrite Hcd, Hcs, Hes, Hed.
    assert (Hd0 : dimE 0 [2; D] =? dimE 0 [d; D; D] = true) by apply Nat.eqb_refl.
    assert (Hd2 : dimE 0 [0; x_rows x; d] =? dimE 2 [d; D; D] = true) by apply Nat.eqb_refl.
    match goal with |- (_ -> exists P L, ?lhs = _ /\ _) /\ _ => assert (Hopen : lhs =
      let* contraction := matmul (S := xn_ops K) (squeezeE 1 (unsq_front 2 (sel0 (tfin K (pm_edge K m)) 0)))
             (unsqE 0 (sel0 (tfin K (pm_edge K m)) 1)) in
      let* _ := assert_ (list_eqb (shp contraction) [x_rows x; 1]) in
      Ok (squeezeE 0 contraction, tconst [x_rows x] (XFin 0))) end.
    { rewrite Hd0. destruct Hm as [->|[-> _]]; cbn [Nat.eqb List.length nth assert_ rbind orb]; rewrite ?Hd2; reflexivity. }
    rewrite Hopen. clear Hopen.
    set (P0 := unsq_front 2 (sel0 (tfin K (pm_edge K m)) 0)).
    assert (HP : shp P0 = [1; 1; D]) by (unfold P0; cbn [unsq_front sel0 shp]; rewrite Hes; reflexivity).
    assert (Hsq : shp (squeezeE 1 P0) = [] ++ [1; D]) by (unfold squeezeE; rewrite HP; reflexivity).
    assert (Hun : shp (unsqE 0 (sel0 (tfin K (pm_edge K m)) 1)) = [] ++ [D; 1]) by (cbn [unsqE sel0 shp]; rewrite Hes; reflexivity).
    destruct (matmul_same (S := xn_ops K) _ _ [] 1 D 1 Hsq Hun) as (T & ET & HT & GT).
    rewrite ET. cbn [rbind]. cbn [app] in HT. rewrite HT.
    assert (Hcheck : list_eqb [1; 1] [x_rows x; 1] = (x_rows x =? 1)).
    { cbn [list_eqb]. rewrite Nat.eqb_sym, ?andb_true_r. reflexivity. }
    rewrite Hcheck. split; intros Hr.
    - rewrite Hr. cbn [Nat.eqb assert_ rbind]. exists (squeezeE 0 T), (tconst [1] (XFin 0)). split; [reflexivity|].
      assert (HS0 : squeezeE 0 T = mkT [1] (fun i => get T (droplast 0 i ++ [0] ++ lastn 0 i))).
      { unfold squeezeE. rewrite HT. reflexivity. }
      rewrite HS0. split; [reflexivity|]. split; [reflexivity|]. split; [reflexivity|]. cbn [get].
      change (droplast 0 [0] ++ [0] ++ lastn 0 [0]) with [0; 0].
      specialize (GT [] 0 0 ltac:(constructor)). cbn [app] in GT. rewrite GT. unfold ends_product. apply bsum_xfin. intros q Hq.
      unfold squeezeE. rewrite HP. reflexivity.
    - apply Nat.eqb_neq in Hr. rewrite Hr. reflexivity.
  Qed.

  (** what slim evaluation of a ProbUnifMPS gives for sequences of length 0: one such sequence has
      probability 1 (unless the boundary vectors are orthogonal); any other number of them is refused *)
  Definition empty_outcome (m : pmps K) (D rows : nat) (r : res (tensor xreal)) : Prop :=
    match r with
    | Ok T => rows = 1 /\ ends_product m D <> s0 /\ shp T = [1] /\ get T [0] = XFin 0
    | Err er => er = AssertionError /\ (rows <> 1 \/ ends_product m D = s0)
    end.
  Lemma empty_amplitude {V} m D (site : nat -> V -> mat K) : amplitude D (edge_at (pm_edge K m) 0) (edge_at (pm_edge K m) 1) site [] = ends_product m D.
  Proof.
    unfold amplitude, ends_product, sandwich. cbn [sites chain]. apply bsum_ext. intros i Hi.
    transitivity (smul (bsum D (fun j => smul (delta i j) (edge_at (pm_edge K m) 1 j))) (edge_at (pm_edge K m) 0 i)).
    - rewrite <- bsum_mul_r. apply bsum_ext. intros; ring.
    - rewrite (bsum_delta_l K D i (edge_at (pm_edge K m) 1) Hi). unfold edge_at. ring.
  Qed.
  Lemma finish_empty (m : pmps K) (x : tin K) D lnr check (amps : res (tensor (xnum K) * tensor xreal)) :
    (x_rows x = 1 -> exists P L, amps = Ok (P, L) /\ shp P = [1] /\ shp L = [1] /\
       get L [0] = XFin 0 /\ get P [0] = Fin (ends_product m D)) ->
    (x_rows x <> 1 -> amps = Err AssertionError) ->
    norm_ok lnr (abs2 (ends_product m D)) -> (forall up : tensor xreal, shp up = [x_rows x] -> check up = true) ->
    empty_outcome m D (x_rows x) (let* psi := amps in finish K psi lnr check).
  Proof.
    intros H1 H2 Hno Hck. destruct (Nat.eq_dec (x_rows x) 1) as [E|E].
    2:{ rewrite (H2 E). cbn. auto. }
    destruct (H1 E) as (P & L & -> & HP & HL & GL & GP). rewrite E in *. cbn [rbind].
    assert (Ha : amps_ok K P L 1 (fun _ => ends_product m D)).
    { split; [exact HP|]. split; [exact HL|]. intros b Hb. replace b with 0 by lia. left. exists 0%R, (ends_product m D).
      split; [exact GL|]. split; [exact GP|]. rewrite exp_0, nof_1. ring. }
    pose proof (finish_ok K P L lnr check 1 (fun _ => ends_product m D) _ Ha Hno (abs2_nonneg K _) Hck) as HF.
    destruct (finish_exact K P L lnr check 1 (fun _ => ends_product m D) _ Ha Hno (abs2_nonneg K _) Hck) as (Hx1 & _ & Hx3).
    unfold empty_outcome. destruct (finish K (P, L) lnr check) as [T|er].
    - destruct HF as (HZ & HT & H). split; [reflexivity|]. split.
      { intros Hz. rewrite Hz, abs2_s0 in HZ. lra. }
      split; [exact HT|]. specialize (H 0 ltac:(lia)). unfold Rdiv in H. rewrite Rinv_r in H by lra.
      rewrite (is_log_pos _ _ H) by lra. rewrite ln_1. reflexivity.
    - destruct HF as [-> HF]. split; [reflexivity|]. right. destruct HF as [HZ|(b & Hb & Hz & _)]; [apply abs2_zero, HZ|exact Hz].
  Qed.

  Theorem C91_slim_empty (m : pmps K) (x : tin K) (par : bool) (n d D : nat) :
    shapes_of K true m n d D -> pm_emb K m = None -> pm_bias K m = None ->
    x_len x = 0 -> x_modes x = 2 \/ (x_modes x = 3 /\ x_feat x = d) ->
    empty_outcome m D (x_rows x) (snd (fwd K true m x true par)).
  Proof.
    intros Hsh Hemb Hbias Hl Hm. destruct (shapes_get _ _ _ _ _ _ Hsh) as (Hd & HD & Hc & He & Hb).
    destruct (slim_empty x m d D Hc He Hbias Hl Hm) as [H1 H2].
    assert (Hc' : shp (pm_core K m) = (if true then [d; D; D] else [0; d; D; D])) by exact Hc.
    destruct (biased_core K m true 0 d D Hc' Hb) as (c & Ec & Hcok).
    assert (Hxs : exists r, tin_shp x = x_rows x :: 0 :: r).
    { unfold x_modes, x_rows, x_len in *. destruct (tin_shp x) as [|a [|b r]]; cbn in *; try lia. subst. eauto. }
    destruct Hxs as (r & Hxs). cbn [fwd]. unfold forward_unif. rewrite Hxs. unfold embed. rewrite Hemb. cbn [snd rbind].
    change (amplitudes K true m x true par) with (amplitudes K true m x true true).
    apply finish_empty; [exact H1|exact H2| |].
    - assert (HZ : Zfun K true m 0 d D = abs2 (ends_product m D)).
      { unfold Zfun, partition_fn. cbn [words]. unfold lsum. cbn [fold_right map]. rewrite empty_amplitude. cbn. lra. }
      rewrite <- HZ. unfold log_norm_unif. rewrite Ec. cbn [rbind]. unfold lamb_of. rewrite Hemb. cbn [rbind].
      apply (get_log_norm_model K m true 0 d D); try assumption. left; reflexivity.
    - intros up Hup. rewrite Hup. apply list_eqb_refl.
  Qed.
  Lemma slim_empty_emb (m : pmps K) e f dom raw M wt d phi (x : tin K) (par : bool) (n D rows : nat) :
    shapes_of K true m n d D -> pm_emb K m = Some e -> built K e f dom -> raw_lambda K num_points_default f dom = Ok raw -> shp raw = [d; d] ->
    (forall k k', k < d -> k' < d -> get raw [k; k'] = gram_matrix M wt phi k k') -> (forall q, q < M -> (0 <= wt q)%R) ->
    pm_bias K m = None -> tin_shp x = [rows; 0] -> shp (f x) = [rows; 0; d] ->
    empty_outcome m D rows (snd (fwd K true m x true par)).
  Proof.
    intros Hsh Hemb Hbu Er Hrs Hrg Hwt Hbias Hs Hfs. destruct (shapes_get _ _ _ _ _ _ Hsh) as (Hd & HD & Hc & He & Hb). set (v := f x) in *.
    destruct (emb_forward_ok K e f _ x raw d Hbu Er Hrs) as (e' & Ee & Hl & _). fold v in Ee.
    set (m' := with_emb K m e').
    assert (Hv : x_len (TFloat v) = 0 /\ x_modes (TFloat v) = 3 /\ x_feat (TFloat v) = d /\ x_rows (TFloat v) = rows).
    { unfold x_len, x_modes, x_feat, x_rows. cbn [tin_shp]. rewrite Hfs. auto. }
    destruct Hv as (Hv1 & Hv2 & Hv3 & Hv4).
    destruct (slim_empty (TFloat v) m' d D Hc He Hbias Hv1 (or_intror (conj Hv2 Hv3))) as [H1 H2].
    assert (Hc' : shp (pm_core K m) = (if true then [d; D; D] else [0; d; D; D])) by exact Hc.
    destruct (biased_core K m' true 0 d D Hc' Hb) as (c & Ec & Hcok).
    cbn [fwd]. unfold forward_unif. rewrite Hs. unfold embed. rewrite Hemb, Ee. cbn [snd rbind]. fold m'.
    change (amplitudes K true m' (TFloat v) true par) with (amplitudes K true m' (TFloat v) true true).
    rewrite <- Hv4. apply (finish_empty m' (TFloat v) D); [exact H1|exact H2| |].
    2:{ intros up Hup. rewrite Hup. apply list_eqb_refl. }
    unfold log_norm_unif. rewrite Ec. cbn [rbind]. unfold lamb_of. cbn [m' with_emb pm_emb]. rewrite Hl. cbn [rbind].
    assert (HN : forall Lm M' wt phi', lamb_ok K (Some (simplify_lamb K raw)) d Lm -> lamb_sum K Lm d M' wt phi' -> (forall q, q < M' -> (0 <= wt q)%R) ->
       norm_ok (get_log_norm K c (tfin K (pm_edge K m')) (Some (Z.of_nat 0)) (Some (simplify_lamb K raw))) (abs2 (ends_product m' D))).
    { intros Lm M' wt' phi' Hlo Hls Hw.
      assert (HZ : emb_Z K m true 0 d D M' wt' phi' = abs2 (ends_product m' D)).
      { unfold emb_Z, weighted_partition_fn. cbn [words]. unfold lsum. cbn [fold_right map]. rewrite empty_amplitude. unfold weight_of. cbn [fold_right]. change (ends_product m' D) with (ends_product m D). cbn [sadd R_ops s0]. lra. }
      rewrite <- HZ.
      apply (get_log_norm_ok K c (tfin K (pm_edge K m')) (Some (Z.of_nat 0)) (Some (simplify_lamb K raw)) true 0 d D Lm M' wt' phi' _
        (edge_at (pm_edge K m) 0) (edge_at (pm_edge K m) 1) (norm_site K d m true phi') Hd HD Hcok); try reflexivity; try assumption.
      left; reflexivity. }
    destruct (simplify_exact K raw d M wt phi Hd Hrs Hrg) as [[_ Hlo]|[_ (lam & Hlam & Hlo)]].
    - apply (HN _ _ _ _ Hlo (lamb_sum_gram K M wt phi d)). exact Hwt.
    - apply (HN _ _ _ _ Hlo (lamb_sum_diag K lam d)). apply (used_nonneg K d _ lam Hd Hlam). intros k _. apply component_weight_nonneg. exact Hwt.
  Qed.
  Theorem C94_slim_empty (m : pmps K) e f M d phi mn (ix : tensor Z) (par : bool) (n D rows : nat) :
    shapes_of K true m n d D -> pm_emb K m = Some e -> built K e f (mkDom false (INR M) mn) -> embeds_discrete f M d phi ->
    pm_bias K m = None -> shp ix = [rows; 0] ->
    empty_outcome m D rows (snd (fwd K true m (TLong ix) true par)).
  Proof.
    intros Hsh Hemb Hbu Hf Hbias Hs.
    destruct (raw_lambda_discrete K f M d phi mn num_points_default Hf) as (raw & Er & Hrs & Hrg).
    destruct (Hf ix) as [Hfs _].
    { intros i Hi. rewrite Hs in Hi. apply valid_cons in Hi as (b & r & -> & _ & Hr). apply valid_cons in Hr as (t & r' & -> & Ht & _). lia. }
    rewrite Hs in Hfs. exact (slim_empty_emb m e f _ raw M (fun _ => 1%R) d phi (TLong ix) par n D rows Hsh Hemb Hbu Er Hrs Hrg ltac:(intros; lra) Hbias Hs Hfs).
  Qed.
  Theorem C94_slim_empty_interval (m : pmps K) e f a b d phi (y : tensor R) (par : bool) (n D rows : nat) :
    (a < b)%R -> shapes_of K true m n d D -> pm_emb K m = Some e -> built K e f (mkDom true b (Some a)) -> embeds_interval f a b d phi ->
    pm_bias K m = None -> shp y = [rows; 0] ->
    empty_outcome m D rows (snd (fwd K true m (TFloat (tmap (nofR K) y)) true par)).
  Proof.
    intros Hab Hsh Hemb Hbu Hf Hbias Hs. assert (HN : 1 < num_points_default) by (apply Nat.ltb_lt; reflexivity).
    destruct (raw_lambda_interval K f a b d phi num_points_default Hab HN Hf) as (raw & Er & Hrs & Hrg).
    destruct (Hf y) as [Hfs _].
    { intros i Hi. rewrite Hs in Hi. apply valid_cons in Hi as (p & r & -> & _ & Hr). apply valid_cons in Hr as (t & r' & -> & Ht & _). lia. }
    rewrite Hs in Hfs. refine (slim_empty_emb m e f _ raw num_points_default _ d _ (TFloat (tmap (nofR K) y)) par n D rows Hsh Hemb Hbu Er Hrs Hrg _ Hbias Hs Hfs).
    intros q Hq. apply trap_weight_nonneg; assumption.
  Qed.
End P.

Section Examples.
  Lemma ae_lsum_pos {X} (l : list X) (f : X -> R) : (forall x, In x l -> (0 <= f x)%R) -> (exists x, In x l /\ (0 < f x)%R) ->
    (0 < lsum (K := R_ops) l f)%R.
  Proof.
    intros Hn (x & Hx & Hp). assert (H0 : forall l', (forall y, In y l' -> (0 <= f y)%R) -> (0 <= lsum (K := R_ops) l' f)%R).
    { induction l' as [|y l' IH]; intros H; [unfold lsum; cbn; lra|]. unfold lsum in *. cbn in *.
      pose proof (H y (or_introl eq_refl)). specialize (IH (fun z Hz => H z (or_intror Hz))). lra. }
    induction l as [|y l IH]; [destruct Hx|]. unfold lsum in *. cbn in *. destruct Hx as [->|Hx].
    - specialize (H0 l (fun z Hz => Hn z (or_intror Hz))). lra.
    - specialize (IH (fun z Hz => Hn z (or_intror Hz)) Hx). pose proof (Hn y (or_introl eq_refl)). lra.
  Qed.
  (** the length-2 model pe_m with the embedding q |-> (1, q) of three values *)
  Definition ae_m (e : embedding R_num) : pmps R_num := mkP R_num pe_core4 pe_edge None (Some e).
  Definition ae_in (batch n' : nat) (z : Z) : tensor Z := mkT [batch; n'] (fun _ => z).
  Lemma ae_visible : ~ invisible R_num 2 (gram_matrix (K := R_num) 3 (fun _ => 1%R) emb3).
  Proof.
    intros H. specialize (H 0 1 ltac:(lia) ltac:(lia) ltac:(lia)). revert H. unfold within_tol, gram_matrix, emb3. cbn -[Rabs].
    match goal with |- context [Rabs ?x] => replace (Rabs x) with 3%R end.
    2:{ symmetry. match goal with |- Rabs ?x = _ => replace x with (-(3))%R by lra end. rewrite Rabs_Ropp. apply Rabs_right; lra. }
    match goal with |- context [Rabs ?x] => replace (Rabs x) with 3%R end.
    2:{ symmetry. match goal with |- Rabs ?x = _ => replace x with (3)%R by lra end. apply Rabs_right; lra. }
    lra.
  Qed.
  Lemma ae_amp : amplitude 2 (edge_at pe_edge 0) (edge_at pe_edge 1)
      (fun t q => vec_site (K := R_num) 2 pe_core4 false None t (emb3 q)) [2; 2] <> 0%R.
  Proof.
    unfold amplitude, sandwich, vec_site, pe_core4, pe_edge, edge_at, entry, bias_at, emb3, mmul.
    cbn -[INR]. unfold mmul. cbn -[INR]. rewrite !INR_IZR_INZ. cbn. try change (Pos.to_nat 1) with 1; cbn. lra.
  Qed.
  Lemma ae_Z e Zn : normaliser R_num false (ae_m e) 2 2 2 3 (fun _ => 1%R) emb3 Zn -> (0 < Zn)%R.
  Proof.
    intros [[_ ->]|[H _]]; [|destruct (ae_visible H)]. unfold emb_Z, weighted_partition_fn. apply ae_lsum_pos.
    - intros xs _. rewrite weight_one. pose proof (abs2_nonneg R_num (amplitude 2 (edge_at (pm_edge R_num (ae_m e)) 0) (edge_at (pm_edge R_num (ae_m e)) 1)
        (norm_site R_num 2 (ae_m e) false emb3) xs)) as H. rewrite Rmult_1_l. exact H.
    - exists [2; 2]. split; [cbn; tauto|]. rewrite weight_one, Rmult_1_l.
      match goal with |- (0 < abs2 ?a)%R => assert (Ha : a <> 0%R); [|destruct (abs2_nonneg R_num a) as [Hp|Hp]; [exact Hp|elim Ha; apply abs2_zero; symmetry; exact Hp]] end.
      unfold norm_site, ae_m, amplitude, sandwich, letter_site, pe_core4, pe_edge, edge_at, entry, bias_at, emb3, mmul.
      cbn -[INR]. unfold mmul. cbn -[INR]. rewrite !INR_IZR_INZ. cbn. try change (Pos.to_nat 1) with 1; cbn. lra.
  Qed.
  (** a single value is accepted and scored as the sequence (2,2); three values raise RuntimeError,
      and one value in slim evaluation AssertionError *)
  Example C94_met : exists e, fixed_embedding R_num emb3_fun (mkDom false (INR 3) None) = Ok e /\
    (exists T l, snd (fwd R_num false (ae_m e) (TLong (ae_in 1 1 2)) false false) = Ok T /\ get T [0] = XFin l) /\
    snd (fwd R_num false (ae_m e) (TLong (ae_in 1 3 2)) false false) = Err RuntimeError /\
    snd (fwd R_num false (ae_m e) (TLong (ae_in 1 1 2)) true false) = Err AssertionError.
  Proof.
    destruct C16_hyps_met as [_ [e Ee]]. exists e. split; [exact Ee|].
    assert (Hs : shapes_of R_num false (ae_m e) 2 2 2) by (cbn; repeat split; lia).
    assert (Hr : forall a b i, valid (shp (ae_in a b 2)) i -> (0 <= get (ae_in a b 2) i < Z.of_nat 3)%Z) by (intros; cbn; lia).
    pose proof (fun a b slim => C94_discrete R_num false (ae_m e) e emb3_fun 3 2 emb3 None (ae_in a b 2) slim false 2 2 Hs eq_refl
      (or_introl Ee) emb3_embeds (Hr a b) ltac:(discriminate)) as H. cbv zeta in H.
    assert (Hv : forall a b slim, embedded_rejection R_num false (has_bias R_num (ae_m e)) slim 2 2 (TLong (ae_in a b 2)) (emb3_fun (TLong (ae_in a b 2)))
       = length_verdict false false slim 2 b).
    { intros a b slim. apply (lengths_verdict R_num false false slim 2 2 _ _ a b); reflexivity. }
    split; [|split].
    - specialize (H 1 1 false). rewrite Hv in H. cbn [length_verdict andb fits Nat.eqb orb] in H.
      destruct H as (Zn & HZ & H). apply ae_Z in HZ. unfold embedded_outcome in H. cbv zeta in H.
      pose proof (row_amplitude R_num false (ae_m e) 0 2 2 2 (fun _ _ => 2) emb3 (emb3_fun (TLong (ae_in 1 1 2))) 1 1 0 eq_refl ltac:(lia)
        ltac:(intros t k Ht Hk; reflexivity)) as Ha. cbn [Nat.eqb repeat] in Ha. cbn [ae_m pm_core pm_edge pm_bias] in Ha, H.
      destruct (snd (fwd R_num false (ae_m e) (TLong (ae_in 1 1 2)) false false)) as [T|er].
      + destruct H as (_ & _ & _ & H). exists T. eexists. split; [reflexivity|]. apply (H 0); [cbn; lia|]. intros E. apply ae_amp. etransitivity; [symmetry; exact Ha|exact E].
      + exfalso. destruct H as [_ [H|(b & Hb & H)]]; [lra|]. cbn in Hb. replace b with 0 in H by lia. apply ae_amp. etransitivity; [symmetry; exact Ha|exact H].
    - specialize (H 1 3 false). rewrite Hv in H. exact H.
    - specialize (H 1 1 true). rewrite Hv in H. exact H.
  Qed.
  (** three empty sequences: refused in slim evaluation; one has probability 1 *)
  Definition ae_u : pmps R_num := mkP R_num pe_core3 pe_edge None None.
  Example C91_slim_empty_met :
    (exists T, snd (fwd R_num true ae_u (TLong (ae_in 1 0 0)) true false) = Ok T /\ get T [0] = XFin 0) /\
    snd (fwd R_num true ae_u (TLong (ae_in 3 0 0)) true false) = Err AssertionError.
  Proof.
    assert (Hs : shapes_of R_num true ae_u 1 2 2) by (cbn; repeat split; lia).
    assert (Hz : ends_product R_num ae_u 2 <> 0%R).
    { unfold ends_product, ae_u, pe_edge. cbn. lra. }
    split.
    - pose proof (C91_slim_empty R_num ae_u (TLong (ae_in 1 0 0)) false 1 2 2 Hs eq_refl eq_refl eq_refl (or_introl eq_refl)) as H.
      unfold empty_outcome in H. destruct (snd (fwd R_num true ae_u (TLong (ae_in 1 0 0)) true false)) as [T|er].
      + exists T. split; [reflexivity|apply H].
      + destruct H as [_ [H|H]]; [elim H; reflexivity|contradiction].
    - pose proof (C91_slim_empty R_num ae_u (TLong (ae_in 3 0 0)) false 1 2 2 Hs eq_refl eq_refl eq_refl (or_introl eq_refl)) as H.
      unfold empty_outcome in H. destruct (snd (fwd R_num true ae_u (TLong (ae_in 3 0 0)) true false)) as [T|er].
      + destruct H as [H _]. discriminate H.
      + destruct H as [-> _]. reflexivity.
  Qed.
End Examples.
Print Assumptions C94_discrete.
Print Assumptions C94_interval.
Print Assumptions C94_discrete_rows.
Print Assumptions C94_interval_rows.
Print Assumptions C94_slim_empty_interval.
Print Assumptions C91_slim_empty.
Print Assumptions C94_slim_empty.
