(** * P_Emb3: trig_embed (C20), init_mlp_embed (C61), DataDomain (C62) *)
From Coq Require Import Reals Lra.
From Verif Require Import Base Scalars Tensor Utils2 MpsBase Embeddings.

(** ** C20 *)
Lemma bsum_sum_f n (f : nat -> R) : bsum (S := R_ops) (Datatypes.S n) f = sum_f_R0 f n.
Proof. induction n as [|n IH]; [cbn; lra|]. cbn [bsum] in *. rewrite IH. reflexivity. Qed.
Lemma C_nonneg n k : (0 <= Binomial.C n k)%R.
Proof.
  unfold Binomial.C. apply Rlt_le. apply Rdiv_lt_0_compat; [apply INR_fact_lt_0|].
  apply Rmult_lt_0_compat; apply INR_fact_lt_0.
Qed.
Lemma pow2_sq x k : ((x ^ k) * (x ^ k) = (x * x) ^ k)%R.
Proof. rewrite Rpow_mult_distr. reflexivity. Qed.
(** For every tensor of numbers (any shape, any entries) and every emb_dim >= 1, the entry
    of the output at position [i] and component [j] is the documented formula, and the
    output vector at [i] has Euclidean norm 1. *)
Theorem C20_trig_unit (data : tensor R) (d : nat) :
  0 < d ->
  exists out, trig_embed data d = Ok out /\ shp out = shp data ++ [d] /\
    forall i, valid (shp data) i ->
      let x := get data i in
      (forall j, j < d -> get out (i ++ [j]) =
         (sqrt (Binomial.C (d - 1) j) * cos (PI / 2 * x) ^ (d - j - 1) * sin (PI / 2 * x) ^ j)%R) /\
      sqrt (bsum (S := R_ops) d (fun j => (get out (i ++ [j]) * get out (i ++ [j]))%R)) = 1%R.
Proof.
  intros Hd. unfold trig_embed. destruct (Nat.eqb_spec d 0); [lia|].
  cbn [shp]. rewrite list_eqb_refl. cbn [assert_ rbind]. eexists. split; [reflexivity|]. split; [reflexivity|].
  intros i Hi. cbn [get]. set (x := get data i).
  assert (Hg : forall j, trig_comp d (last (i ++ [j]) 0) (get data (droplast 1 (i ++ [j]))) =
     (sqrt (Binomial.C (d - 1) j) * cos (PI / 2 * x) ^ (d - j - 1) * sin (PI / 2 * x) ^ j)%R).
  { intros j. rewrite (droplast_app i [j] 1 eq_refl), last_last. unfold trig_comp. fold x.
    replace (x * PI / 2)%R with (PI / 2 * x)%R by lra. ring. }
  split; [intros j _; apply Hg|].
  rewrite <- sqrt_1. f_equal.
  destruct d as [|k]; [lia|]. rename n into Hn0, k into n.
  transitivity (bsum (S := R_ops) (Datatypes.S n) (fun j => (Binomial.C n j * (sin (PI / 2 * x) * sin (PI / 2 * x)) ^ j * (cos (PI / 2 * x) * cos (PI / 2 * x)) ^ (n - j))%R)).
  { apply (bsum_ext (S := R_ops)). intros j Hj. rewrite Hg.
    replace (S n - 1) with n by lia. replace (S n - j - 1) with (n - j) by lia.
    rewrite <- !pow2_sq. rewrite <- (sqrt_sqrt (Binomial.C n j)) at 3 by apply C_nonneg. cbn. ring. }
  rewrite bsum_sum_f, <- binomial.
  pose proof (sin2_cos2 (PI / 2 * x)) as H. unfold Rsqr in H. rewrite H. apply pow1.
Qed.
(** emb_dim = 0 is rejected (torch.stack of an empty list) *)
Theorem C20_trig_rejects (data : tensor R) : trig_embed data 0 = Err RuntimeError.
Proof. reflexivity. Qed.
Example C20_hyps_met : exists out, trig_embed (tconst [2; 3] (1/3)%R) 4 = Ok out /\ shp out = [2; 3; 4].
Proof. eexists; split; reflexivity. Qed.

(** ** C61 *)
(** the hidden dimensions that are used: a list as it is, an int repeated *)
Definition hidden_of (num_layers : Z) (h : hidden) : list Z :=
  match h with HInt k => repeat k (Z.to_nat (num_layers - 1)) | HList l => l end.
(** For every request: rejected with AssertionError unless num_layers >= 1 and the list of
    hidden dimensions has length num_layers - 1; otherwise the network has exactly
    2*num_layers modules; the modules 2t are linear layers, the modules 2t+1 sigmoids; the
    input dimension of the first linear layer is 1, the output dimension of layer t is the
    input dimension of layer t+1 and equals the t-th hidden dimension, and the output
    dimension of the last one is output_dim. *)
Theorem C61_mlp_architecture (output_dim num_layers : Z) (h : hidden) :
  let hs := hidden_of num_layers h in
  let L := Z.to_nat num_layers in
  ((num_layers < 1)%Z \/ Z.of_nat (List.length hs) <> (num_layers - 1)%Z ->
     init_mlp_layers output_dim num_layers h = Err AssertionError) /\
  ((1 <= num_layers)%Z -> Z.of_nat (List.length hs) = (num_layers - 1)%Z ->
     exists ls dims, init_mlp_layers output_dim num_layers h = Ok ls /\
       List.length ls = 2 * L /\ List.length dims = S L /\
       nth 0 dims 0%Z = 1%Z /\ nth L dims 0%Z = output_dim /\
       (forall t, t < L - 1 -> nth (S t) dims 0%Z = nth t hs 0%Z) /\
       forall t, t < L ->
         nth_error ls (2 * t) = Some (Linear (nth t dims 0%Z) (nth (S t) dims 0%Z)) /\
         nth_error ls (2 * t + 1) = Some Sigmoid).
Proof.
  intros hs L. unfold init_mlp_layers. fold (hidden_of num_layers h). fold hs. split.
  - intros H. destruct (Z.eqb_spec (Z.of_nat (List.length hs)) (num_layers - 1)); [|reflexivity].
    exfalso. destruct H as [H|H]; [lia|contradiction].
  - intros H1 H2. rewrite H2, Z.eqb_refl. cbn [assert_ rbind].
    eexists. exists ([1%Z] ++ hs ++ [output_dim]). split; [reflexivity|].
    assert (Hlen : List.length hs = L - 1) by (unfold L; lia).
    set (dims := [1%Z] ++ hs ++ [output_dim]).
    assert (Hfl : forall n s, List.length (flat_map (fun i => [Linear (nth i dims 0%Z) (nth (S i) dims 0%Z); Sigmoid]) (seq s n)) = 2 * n).
    { induction n as [|n IH]; intros s; [reflexivity|]. cbn [seq flat_map]. rewrite app_length, IH. cbn. lia. }
    assert (Hnth : forall n s t, t < n ->
        nth_error (flat_map (fun i => [Linear (nth i dims 0%Z) (nth (S i) dims 0%Z); Sigmoid]) (seq s n)) (2 * t)
          = Some (Linear (nth (s + t) dims 0%Z) (nth (S (s + t)) dims 0%Z)) /\
        nth_error (flat_map (fun i => [Linear (nth i dims 0%Z) (nth (S i) dims 0%Z); Sigmoid]) (seq s n)) (2 * t + 1) = Some Sigmoid).
    { induction n as [|n IH]; intros s t Ht; [lia|]. cbn [seq flat_map]. destruct t as [|t].
      - rewrite Nat.add_0_r. split; reflexivity.
      - replace (2 * S t) with (S (S (2 * t))) by lia. replace (S (S (2 * t)) + 1) with (S (S (2 * t + 1))) by lia.
        cbn [app nth_error]. replace (s + S t) with (S s + t) by lia. apply IH. lia. }
    assert (HL : 0 < L) by (unfold L; lia).
    split; [apply Hfl|]. split; [unfold dims; rewrite !app_length; cbn; lia|]. split; [reflexivity|].
    split.
    { unfold dims. rewrite app_nth2 by (cbn; lia). rewrite app_nth2 by (cbn; lia). replace (L - List.length [1%Z] - List.length hs) with 0 by (cbn; lia). reflexivity. }
    split.
    { intros t Ht. unfold dims. rewrite app_nth2 by (cbn; lia). cbn [List.length]. replace (S t - 1) with t by lia. rewrite app_nth1 by lia. reflexivity. }
    intros t Ht. apply (Hnth L 0 t Ht).
Qed.
(** an int for hidden_dims is the constant list, for every num_layers >= 1 *)
Theorem C61_int_hidden (output_dim num_layers k : Z) :
  (1 <= num_layers)%Z ->
  init_mlp_layers output_dim num_layers (HInt k) =
  init_mlp_layers output_dim num_layers (HList (repeat k (Z.to_nat (num_layers - 1)))) /\
  exists ls, init_mlp_layers output_dim num_layers (HInt k) = Ok ls.
Proof.
  intros H. split; [reflexivity|]. unfold init_mlp_layers. rewrite repeat_length, Z2Nat.id, Z.eqb_refl by lia. eexists. reflexivity.
Qed.
(** the domain of the returned embedding: the one that is given, and the interval from 0 to 1 if none is *)
Theorem C61_domain :
  (forall d, init_mlp_domain (Some d) = d) /\
  data_domain true 1 (Some 0%R) = Ok (init_mlp_domain None).
Proof. split; [reflexivity|]. cbn. destruct (Rlt_dec 0 1); [reflexivity|lra]. Qed.
Example C61_hyps_met : init_mlp_layers 5 3 (HList [7; 8]%Z) =
  Ok [Linear 1 7; Sigmoid; Linear 7 8; Sigmoid; Linear 8 5; Sigmoid].
Proof. reflexivity. Qed.

(** ** C62 *)
Theorem C62_domain (continuous : bool) (max_val : R) (min_val : option R) :
  (** accepted continuous intervals *)
  (forall mn, continuous = true -> min_val = Some mn -> (mn < max_val)%R ->
     exists d, data_domain continuous max_val min_val = Ok d /\
       dom_cont d = true /\ dom_max d = max_val /\ dom_min d = Some mn) /\
  (** accepted discrete domains *)
  (continuous = false -> (0 <= max_val)%R ->
     exists d, data_domain continuous max_val min_val = Ok d /\ dom_cont d = false /\ dom_max d = max_val) /\
  (** everything else raises *)
  (forall mn, continuous = true -> min_val = Some mn -> (max_val <= mn)%R ->
     data_domain continuous max_val min_val = Err AssertionError) /\
  (continuous = true -> min_val = None -> data_domain continuous max_val min_val = Err TypeError) /\
  (continuous = false -> (max_val < 0)%R -> data_domain continuous max_val min_val = Err AssertionError).
Proof.
  split; [|split; [|split; [|split]]].
  - intros mn -> -> H. cbn. destruct (Rlt_dec mn max_val); [|contradiction]. eexists; repeat split.
  - intros -> H. cbn. destruct (Rle_dec 0 max_val); [|contradiction]. eexists; repeat split.
  - intros mn -> -> H. cbn. destruct (Rlt_dec mn max_val); [lra|reflexivity].
  - intros -> ->. reflexivity.
  - intros -> H. cbn. destruct (Rle_dec 0 max_val); [lra|reflexivity].
Qed.
Example C62_hyps_met : exists d, data_domain true 1 (Some 0%R) = Ok d.
Proof. cbn. destruct (Rlt_dec 0 1); [eexists; reflexivity|lra]. Qed.
Print Assumptions C20_trig_unit.
Print Assumptions C61_mlp_architecture.
Print Assumptions C62_domain.
Print Assumptions C61_domain.
