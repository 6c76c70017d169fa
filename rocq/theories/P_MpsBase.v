(** * P_MpsBase: properties C04-C07 (torchmps/mps_base.py: get_mat_slices,
    slim_eval_fun, get_log_norm). *)
From Coq Require Import Ring_theory Ring Reals Lra.
From Verif Require Import Base Scalars Tensor Utils2 MpsBase Spec MatSpec ModelSpec
  LinAlg Utils2Proofs SlimProofs LogNorm ProbMps ProbProofs.

Section P.
  Variable K : numfield.
  Add Ring KrPB : (rth K).

  (** *** C04 get_mat_slices *)
  (** Python index convention for an axis of size d: -d..d-1 are legal, negative ones
      count from the end *)
  Definition legal (d : nat) (z : Z) : Prop := (- Z.of_nat d <= z < Z.of_nat d)%Z.
  Definition wrap (d : nat) (z : Z) : nat := Z.to_nat (z mod Z.of_nat d).
  Lemma pyidx_wrap d z : legal d z -> pyidx d z = wrap d z.
  Proof.
    intros [H1 H2]. unfold pyidx, wrap. assert (0 < d) by (destruct d; simpl in *; lia).
    destruct (Z.ltb_spec z 0).
    - f_equal. apply (Z.mod_unique _ _ (-1)); [left; lia|lia].
    - f_equal. symmetry. apply Z.mod_small. lia.
  Qed.
  Lemma in_range_legal d z : in_range d z = true <-> legal d z.
  Proof. unfold in_range, legal. rewrite andb_true_iff, Z.leb_le, Z.ltb_lt. tauto. Qed.

  (** Discrete inputs: slice (b, t) is core[x_bt] (uniform) or core[t, x_bt] (fixed length) *)
  Theorem C04_discrete_slices (ix : tensor Z) (core : tensor K) (uniform : bool) (batch n d D E : nat) :
    shp ix = [batch; n] -> shp core = (if uniform then [d; D; E] else [n; d; D; E]) ->
    (forall b t, b < batch -> t < n -> legal d (get ix [b; t])) ->
    exists T, get_mat_slices K (TLong ix) (tlift core) = Ok T /\ shp T = [batch; n; D; E] /\
      forall b t i j, b < batch -> t < n -> i < D -> j < E ->
        get T [b; t; i; j] = Fin (entry core uniform t (wrap d (get ix [b; t])) i j).
  Proof.
    intros Hs Hc Hr. unfold get_mat_slices. cbn [tin_shp]. rewrite Hs.
    assert (Hcd : ndim (tlift core) = if uniform then 3 else 4).
    { unfold ndim. cbn [tlift tmap shp]. rewrite Hc. destruct uniform; reflexivity. }
    rewrite Hcd. cbn [List.length Nat.eqb orb assert_ rbind].
    assert (Hrr : forall i, valid [batch; n] i -> legal d (get ix i)).
    { intros i Hi. apply (valid_app2_inv []) in Hi as (b & p & q & -> & Hb & Hp & Hq).
      apply valid_nil in Hb. subst. apply Hr; assumption. }
    destruct uniform; cbn [Nat.eqb orb assert_ rbind].
    - unfold gather0. cbn [tlift tmap shp]. rewrite Hc. cbn [hd tl].
      rewrite (proj2 (tall_spec (in_range d) ix)) by (rewrite Hs; intros i Hi; apply in_range_legal, Hrr, Hi).
      eexists. split; [reflexivity|].
      split; [cbn [shp]; rewrite Hs; reflexivity|]. intros b t i j Hb Ht Hi Hj. cbn [get].
      unfold ndim. rewrite Hs. cbn [List.length firstn skipn].
      rewrite pyidx_wrap by (apply Hr; assumption). reflexivity.
    - unfold gather01. cbn [tlift tmap shp]. rewrite Hc.
      assert (Hf : forallb (fun i => (nth 1 i 0 <? n) && in_range d (get ix i)) (all_idx (shp ix)) = true).
      { apply forallb_forall. intros i Hi. apply all_idx_spec in Hi. rewrite Hs in Hi.
        pose proof (Hrr i Hi) as Hri.
        apply (valid_app2_inv []) in Hi as (b & p & q & -> & Hb & Hp & Hq).
        apply valid_nil in Hb. subst. apply andb_true_iff. split; [apply Nat.ltb_lt; exact Hq|].
        apply in_range_legal, Hri. }
      rewrite Hf. eexists. split; [reflexivity|]. split; [cbn [shp]; rewrite Hs; reflexivity|].
      intros b t i j Hb Ht Hi Hj. cbn [get nth firstn skipn].
      rewrite pyidx_wrap by (apply Hr; assumption). reflexivity.
  Qed.
  (** An index outside the alphabet anywhere in the batch raises IndexError *)
  Theorem C04_out_of_alphabet (ix : tensor Z) (core : tensor K) (uniform : bool) (batch n d D E b t : nat) :
    shp ix = [batch; n] -> shp core = (if uniform then [d; D; E] else [n; d; D; E]) ->
    b < batch -> t < n -> ~ legal d (get ix [b; t]) ->
    get_mat_slices K (TLong ix) (tlift core) = Err IndexError.
  Proof.
    intros Hs Hc Hb Ht Hbad. unfold get_mat_slices. cbn [tin_shp]. rewrite Hs.
    assert (Hcd : ndim (tlift core) = if uniform then 3 else 4).
    { unfold ndim. cbn [tlift tmap shp]. rewrite Hc. destruct uniform; reflexivity. }
    assert (Hf : in_range d (get ix [b; t]) = false).
    { destruct (in_range d (get ix [b; t])) eqn:Ei; [|reflexivity]. exfalso. apply Hbad, in_range_legal, Ei. }
    assert (Hv : valid (shp ix) [b; t]) by (rewrite Hs; apply valid_2; auto).
    rewrite Hcd. cbn [List.length Nat.eqb orb assert_ rbind]. destruct uniform; cbn [Nat.eqb orb assert_ rbind].
    - unfold gather0. cbn [tlift tmap shp]. rewrite Hc. cbn [hd tl]. rewrite (tall_false _ _ [b; t] Hv Hf). reflexivity.
    - unfold gather01. cbn [tlift tmap shp]. rewrite Hc.
      destruct (forallb (fun i => (nth 1 i 0 <? n) && in_range d (get ix i)) (all_idx (shp ix))) eqn:Ef; [|reflexivity].
      exfalso. rewrite forallb_forall in Ef. specialize (Ef [b; t] (proj2 (all_idx_spec _ _) Hv)).
      apply andb_true_iff in Ef as [_ Ef]. congruence.
  Qed.
  (** Vector inputs: slice (b, t) is sum_k v_btk core[.., k] *)
  Theorem C04_vector_slices (v : tensor K) (core : tensor K) (uniform : bool) (batch n d D : nat) :
    shp v = [batch; n; d] -> shp core = (if uniform then [d; D; D] else [n; d; D; D]) ->
    exists T, get_mat_slices K (TFloat (tlift v)) (tlift core) = Ok T /\ shp T = [batch; n; D; D] /\
      forall b t i j, b < batch -> t < n -> i < D -> j < D ->
        get T [b; t; i; j] = Fin (bsum d (fun k => smul (get v [b; t; k]) (entry core uniform t k i j))).
  Proof.
    intros Hv Hc. destruct (get_mat_slices_ok K (TFloat v) core uniform batch n d D Hv Hc) as (T & ET & HT & G).
    exists T. split; [exact ET|]. split; [exact HT|]. exact G.
  Qed.
  (** Discrete input and its one-hot encoding give the same slices *)
  Theorem C04_onehot_agrees (ix : tensor Z) (v : tensor K) (core : tensor K) (uniform : bool) (batch n d D : nat) :
    shp ix = [batch; n] -> shp v = [batch; n; d] -> shp core = (if uniform then [d; D; D] else [n; d; D; D]) ->
    (forall b t, b < batch -> t < n -> (0 <= get ix [b; t] < Z.of_nat d)%Z) ->
    (forall b t k, b < batch -> t < n -> k < d ->
       get v [b; t; k] = if (get ix [b; t] =? Z.of_nat k)%Z then s1 else s0) ->
    exists T U, get_mat_slices K (TLong ix) (tlift core) = Ok T /\
                get_mat_slices K (TFloat (tlift v)) (tlift core) = Ok U /\ teq T U.
  Proof.
    intros Hs Hv Hc Hr Hone.
    destruct (get_mat_slices_ok K (TLong ix) core uniform batch n d D (conj Hs Hr) Hc) as (T & ET & HT & GT).
    destruct (get_mat_slices_ok K (TFloat v) core uniform batch n d D Hv Hc) as (U & EU & HU & GU).
    exists T, U. split; [exact ET|]. split; [exact EU|]. split; [congruence|].
    intros i Hi. rewrite HT in Hi.
    apply valid_cons in Hi as (b & r & -> & Hb & Hi).
    apply (valid_app3_inv []) in Hi as (q & t & p & j & -> & Hq & Ht & Hp & Hj).
    apply valid_nil in Hq. subst q. cbn [app].
    rewrite GT, GU by assumption. f_equal. unfold site_mat, slice_at.
    specialize (Hr b t Hb Ht).
    transitivity (bsum d (fun k => if k =? Z.to_nat (get ix [b; t]) then core_at K core uniform t k p j else s0)).
    - rewrite (bsum_delta K d (Z.to_nat (get ix [b; t])) (fun k => core_at K core uniform t k p j)) by lia. reflexivity.
    - apply bsum_ext. intros k Hk. rewrite Hone by assumption.
      destruct (Z.eqb_spec (get ix [b; t]) (Z.of_nat k)) as [E|E]; destruct (Nat.eqb_spec k (Z.to_nat (get ix [b; t]))) as [E'|E'];
        try ring; exfalso; lia.
  Qed.

  (** *** C05 slim_eval_fun *)
  Theorem C05_slim_eval (x : tin K) (core edge : tensor K) (uniform : bool) (batch n d D : nat) :
    wf_input x batch n d -> shp core = (if uniform then [d; D; D] else [n; d; D; D]) ->
    shp edge = [2; D] -> 0 < D -> 0 < n ->
    exists P L, slim_eval_fun K (tin_fin K x) (tlift core) (tlift edge) = Ok (P, L) /\
      shp P = [batch] /\ shp L = [batch] /\
      forall b, b < batch ->
        let rows := chain (row_mats core None uniform n d D x b) in
        (** the left product of the row is not the zero vector *)
        (exists j, j < D /\ vmul D (edge_at edge 0) rows j <> s0) ->
        exists s c, get L [b] = XFin s /\ get P [b] = Fin c /\
          smul c (nofR K (exp s)) = row_amp core edge None uniform n d D x b.
  Proof.
    intros Hx Hc He HD Hn.
    destruct (slim_eval_ok K x core edge uniform batch n d D Hx Hc He HD Hn) as (P & L & E & HP & HL & H).
    exists P, L. split; [exact E|]. split; [exact HP|]. split; [exact HL|]. intros b Hb rows (j & Hj & Hnz).
    unfold rows in *. clear rows. rewrite row_mats_fchain in *. set (rows := chain (fchain K D n (row_site K core None uniform d x b))) in *.
    assert (Hfc : forall i j, i < D -> j < D ->
      chain (fchain K D n (site_mat K core uniform x d b)) i j = rows i j).
    { apply fchain_ext. intros t i' j' _ _ _. unfold row_site. cbn [bias_at]. ring. }
    destruct (H b Hb) as [[(s & c & Hs & Hc' & Hx')|[_ Hz]] _].
    - exists s, c. split; [exact Hs|]. split; [exact Hc'|]. rewrite Hx', row_amp_chain.
      apply sandwich_ext; [reflexivity|reflexivity|exact Hfc].
    - exfalso. apply Hnz. rewrite <- (Hz j Hj). unfold lprod, vmul. apply bsum_ext. intros i Hi.
      rewrite Hfc by assumption. reflexivity.
  Qed.
  (** ... in particular whenever the amplitude itself is nonzero *)
  Theorem C05_slim_eval_nonzero (x : tin K) (core edge : tensor K) (uniform : bool) (batch n d D : nat) :
    wf_input x batch n d -> shp core = (if uniform then [d; D; D] else [n; d; D; D]) ->
    shp edge = [2; D] -> 0 < D -> 0 < n ->
    exists P L, slim_eval_fun K (tin_fin K x) (tlift core) (tlift edge) = Ok (P, L) /\
      shp P = [batch] /\ shp L = [batch] /\
      forall b, b < batch -> row_amp core edge None uniform n d D x b <> s0 ->
        exists s c, get L [b] = XFin s /\ get P [b] = Fin c /\
          smul c (nofR K (exp s)) = row_amp core edge None uniform n d D x b.
  Proof.
    intros Hx Hc He HD Hn.
    destruct (C05_slim_eval x core edge uniform batch n d D Hx Hc He HD Hn) as (P & L & E & HP & HL & H).
    exists P, L. split; [exact E|]. split; [exact HP|]. split; [exact HL|]. intros b Hb Hnz.
    apply (H b Hb). rewrite row_amp_chain in Hnz. rewrite row_mats_fchain.
    set (rows := chain (fchain K D n (row_site K core None uniform d x b))) in *.
    destruct (bounded_zero_dec K D (vmul D (edge_at edge 0) rows)) as [Hz|(j & Hj & Hn0)]; [|exists j; auto].
    exfalso. apply Hnz. unfold sandwich. rewrite bsum_swap. apply bsum_zero. intros j Hj.
    transitivity (smul (vmul D (edge_at edge 0) rows j) (edge_at edge 1 j)); [|rewrite Hz by exact Hj; ring].
    unfold vmul. rewrite <- bsum_mul_r. apply bsum_ext. intros i Hi. ring.
  Qed.

  (** *** C06 get_log_norm without lambda *)
  Theorem C06_log_norm (core edge : tensor K) (uniform : bool) (len : option Z) (n d D : nat) :
    0 < d -> 0 < D -> shp core = (if uniform then [d; D; D] else [n; d; D; D]) -> shp edge = [2; D] ->
    len = Some (Z.of_nat n) \/ (len = None /\ uniform = false) ->
    let Z := partition_fn d n D (edge_at edge 0) (edge_at edge 1) (fun t k i j => entry core uniform t k i j) in
    (0 < Z)%R ->
    exists L, get_log_norm K (tlift core) (tlift edge) len None = Ok L /\
              shp L = [] /\ get L [] = XFin (ln Z).
  Proof.
    intros Hd HD Hc He Hlen Z HZ.
    pose proof (get_log_norm_ok K (tlift core) (tlift edge) len None uniform n d D delta d (fun _ => 1%R) delta
      (fun t k i j => entry core uniform t k i j) (edge_at edge 0) (edge_at edge 1)
      (fun t k i j => entry core uniform t k i j) Hd HD) as H.
    rewrite Zw_one in H. apply H; try reflexivity; try assumption.
    - split; [exact Hc|]. intros t k i j _ _ _ _. unfold entry. destruct uniform; reflexivity.
    - intros k k' _ _. reflexivity.
    - apply lamb_sum_delta.
    - intros. lra.
    - intros t k i j _ Hk _ _. unfold esite. symmetry.
      apply (bsum_delta_l K d k (fun q => entry core uniform t q i j) Hk).
  Qed.
  (** the normalisation never comes out as a wrong finite number: when Z = 0 the
      result is not finite or an assertion of the code fails *)
  Theorem C06_zero_norm (core edge : tensor K) (uniform : bool) (len : option Z) (n d D : nat) :
    0 < d -> 0 < D -> shp core = (if uniform then [d; D; D] else [n; d; D; D]) -> shp edge = [2; D] ->
    len = Some (Z.of_nat n) \/ (len = None /\ uniform = false) ->
    partition_fn d n D (edge_at edge 0) (edge_at edge 1) (fun t k i j => entry core uniform t k i j) = 0%R ->
    match get_log_norm K (tlift core) (tlift edge) len None with
    | Ok L => shp L = [] /\ xfinite (get L []) = false
    | Err e => e = AssertionError
    end.
  Proof.
    intros Hd HD Hc He Hlen HZ.
    pose proof (get_log_norm_ok K (tlift core) (tlift edge) len None uniform n d D delta d (fun _ => 1%R) delta
      (fun t k i j => entry core uniform t k i j) (edge_at edge 0) (edge_at edge 1)
      (fun t k i j => entry core uniform t k i j) Hd HD) as H.
    rewrite Zw_one in H. apply H; try reflexivity; try assumption.
    - split; [exact Hc|]. intros t k i j _ _ _ _. unfold entry. destruct uniform; reflexivity.
    - intros k k' _ _. reflexivity.
    - apply lamb_sum_delta.
    - intros. lra.
    - intros t k i j _ Hk _ _. unfold esite. symmetry.
      apply (bsum_delta_l K d k (fun q => entry core uniform t q i j) Hk).
  Qed.

  (** *** C07 get_log_norm with a lambda matrix in one of its three formats *)
  (** the d x d matrix that a lamb_mat argument stands for: a scalar a means a*Id, a
      vector its diagonal matrix, a matrix itself *)
  Inductive denotes (l : tensor K) (d : nat) (Lm : mat K) : Prop :=
  | den_scalar a : shp l = [] -> get l [] = a ->
      (forall k k', k < d -> k' < d -> Lm k k' = if k =? k' then a else s0) -> denotes l d Lm
  | den_diag : shp l = [d] ->
      (forall k k', k < d -> k' < d -> Lm k k' = if k =? k' then get l [k] else s0) -> denotes l d Lm
  | den_full : shp l = [d; d] ->
      (forall k k', k < d -> k' < d -> Lm k k' = get l [k; k']) -> denotes l d Lm.
  Lemma denotes_lamb_ok l d Lm : denotes l d Lm -> lamb_ok K (Some (tlift l)) d Lm.
  Proof.
    intros [a Hs Ha HL|Hs HL|Hs HL]; cbn [lamb_ok].
    - left. exists a. split; [exact Hs|]. split; [cbn [tlift tmap get]; rewrite Ha; reflexivity|].
      intros k k' Hk Hk'. rewrite HL by assumption. unfold delta. destruct (k =? k'); ring.
    - right. left. exists (fun k => get l [k]). split; [exact Hs|]. split; [reflexivity|].
      intros k k' Hk Hk'. rewrite HL by assumption. unfold delta. destruct (k =? k'); ring.
    - right. right. split; [exact Hs|]. intros k k' Hk Hk'. rewrite HL by assumption. reflexivity.
  Qed.
  Theorem C07_log_norm_lambda (core edge lamb : tensor K) (uniform : bool) (len : option Z) (n d D M : nat)
      (wt : nat -> R) (phi : nat -> nat -> K) (Lm : mat K) :
    0 < d -> 0 < D -> shp core = (if uniform then [d; D; D] else [n; d; D; D]) -> shp edge = [2; D] ->
    len = Some (Z.of_nat n) \/ (len = None /\ uniform = false) ->
    denotes lamb d Lm ->
    (** lambda = sum_m wt_m phi_m phi_m^dagger with nonnegative weights *)
    (forall m, m < M -> (0 <= wt m)%R) ->
    (forall k k', k < d -> k' < d ->
       Lm k k' = bsum M (fun m => smul (nofR K (wt m)) (smul (phi m k) (nconj K (phi m k'))))) ->
    let Z := weighted_partition_fn wt M n D (edge_at edge 0) (edge_at edge 1)
               (fun t m => vec_site d core uniform None t (phi m)) in
    (0 < Z)%R ->
    exists L, get_log_norm K (tlift core) (tlift edge) len (Some (tlift lamb)) = Ok L /\
              shp L = [] /\ get L [] = XFin (ln Z).
  Proof.
    intros Hd HD Hc He Hlen Hl Hw HLm Z HZ.
    pose proof (get_log_norm_ok K (tlift core) (tlift edge) len (Some (tlift lamb)) uniform n d D Lm M wt phi
      (fun t k i j => entry core uniform t k i j) (edge_at edge 0) (edge_at edge 1)
      (fun t m => vec_site d core uniform None t (phi m)) Hd HD) as H.
    apply H; try reflexivity; try assumption.
    - split; [exact Hc|]. intros t k i j _ _ _ _. unfold entry. destruct uniform; reflexivity.
    - apply denotes_lamb_ok, Hl.
    - intros t m i j _ Hm _ _. unfold vec_site, esite. cbn [bias_at]. ring.
  Qed.
End P.

(** *** Non-vacuity *)
(** a fixed-length model with n = 2, d = 2, D = 2 and a uniform one, both with Z > 0 *)
Definition ex_core4 : tensor R_num :=
  mkT [2; 2; 2; 2] (fun i => INR (1 + nth 0 i 0 + 2 * nth 1 i 0 + nth 2 i 0 * nth 3 i 0)).
Definition ex_edge : tensor R_num := mkT [2; 2] (fun i => INR (1 + nth 1 i 0)).
Definition ex_ix : tensor Z := mkT [3; 2] (fun i => Z.of_nat ((nth 0 i 0 + nth 1 i 0) mod 2)).
Example C04_hyps_met :
  shp ex_ix = [3; 2] /\ shp ex_core4 = [2; 2; 2; 2] /\
  (forall b t, b < 3 -> t < 2 -> legal 2 (get ex_ix [b; t])) /\
  get (mkT [1; 2] (fun _ => (-1)%Z)) [0; 0] = (-1)%Z /\ legal 2 (-1) /\ wrap 2 (-1) = 1 /\ ~ legal 2 2.
Proof.
  split; [reflexivity|]. split; [reflexivity|]. split.
  - intros b t _ _. unfold legal, ex_ix. cbn [get nth].
    pose proof (Nat.mod_upper_bound (b + t) 2 ltac:(lia)). lia.
  - unfold legal. split; [reflexivity|]. split; [lia|]. split; [reflexivity|]. lia.
Qed.
Example C05_hyps_met :
  wf_input (K := R_num) (TLong ex_ix) 3 2 2 /\
  row_amp ex_core4 ex_edge None false 2 2 2 (TLong ex_ix) 1 <> 0%R.
Proof.
  split.
  - split; [reflexivity|]. intros b t _ _. unfold ex_ix. cbn [get nth].
    pose proof (Nat.mod_upper_bound (b + t) 2 ltac:(lia)). lia.
  - unfold row_amp, amplitude, sandwich, ex_core4, ex_edge, edge_at, row_letters, letter_site, entry, bias_at, mmul.
    cbn -[INR]. unfold mmul. cbn -[INR]. rewrite !INR_IZR_INZ. cbn. change (Pos.to_nat 1) with 1. cbn. lra.
Qed.
Example C06_hyps_met :
  (0 < partition_fn 2 2 2 (edge_at ex_edge 0) (edge_at ex_edge 1)
         (fun t k i j => entry (K := R_num) ex_core4 false t k i j))%R.
Proof.
  apply (lsumR_pos (words 2 2) _ [0; 0]).
  - intros. apply (abs2_nonneg R_num).
  - simpl. auto.
  - unfold abs2, amplitude, sandwich, ex_core4, ex_edge, edge_at, entry, mmul.
    cbn -[INR Rabs]. unfold mmul. cbn -[INR Rabs]. rewrite !INR_IZR_INZ. cbn -[Rabs].
    apply Rmult_lt_0_compat; apply Rabs_pos_lt; lra.
Qed.
Example C07_hyps_met :
  denotes R_num (mkT [] (fun _ => 2%R)) 2 (fun k k' => if k =? k' then 2%R else 0%R) /\
  (forall k k', k < 2 -> k' < 2 ->
    (if k =? k' then 2%R else 0%R) =
    bsum (S := R_num) 2 (fun m => (2 * ((if m =? k then 1 else 0) * (if m =? k' then 1 else 0)))%R)).
Proof.
  split.
  - apply (den_scalar R_num _ _ _ 2%R); reflexivity.
  - intros [|[|k]] [|[|k']] Hk Hk'; try lia; cbn; ring.
Qed.

Print Assumptions C04_discrete_slices.
Print Assumptions C04_out_of_alphabet.
Print Assumptions C04_vector_slices.
Print Assumptions C04_onehot_agrees.
Print Assumptions C05_slim_eval.
Print Assumptions C05_slim_eval_nonzero.
Print Assumptions C06_log_norm.
Print Assumptions C06_zero_norm.
Print Assumptions C07_log_norm_lambda.
