(** * ModelSpec: what a probabilistic MPS denotes.
    Part of the specification: reads the parameter tensors of a model and the
    rows of an input batch; mentions none of the modelled functions. *)
From Coq Require Import Reals.
From Verif Require Import Base Scalars Tensor Utils2 MpsBase Spec.

Section ModelSpec.
  Variable K : numfield.
  (** entry (k,i,j) of the core used at site [t] *)
  Definition entry (core : tensor K) (uniform : bool) (t k i j : nat) : K :=
    if uniform then get core [k; i; j] else get core [t; k; i; j].
  Definition bias_at (b : option (tensor K)) (i j : nat) : K :=
    match b with None => s0 | Some b => get b [i; j] end.
  (** the matrix of site [t] for the letter [k]: A_k + B *)
  Definition letter_site (core : tensor K) (uniform : bool) (b : option (tensor K))
    (t k : nat) : mat K :=
    fun i j => sadd (entry core uniform t k i j) (bias_at b i j).
  (** the matrix of site [t] for the feature vector [phi]: sum_k phi_k A_k + B *)
  Definition vec_site (d : nat) (core : tensor K) (uniform : bool) (b : option (tensor K))
    (t : nat) (phi : nat -> K) : mat K :=
    fun i j => sadd (bsum d (fun k => smul (phi k) (entry core uniform t k i j))) (bias_at b i j).
  (** boundary vectors *)
  Definition edge_at (edge : tensor K) (k : nat) : vec K := fun i => get edge [k; i].
  (** the rows of a batch *)
  Definition row_letters (ix : tensor Z) (n b : nat) : list nat :=
    map (fun t => Z.to_nat (get ix [b; t])) (seq 0 n).
  Definition row_vectors (v : tensor K) (n b : nat) : list (nat -> K) :=
    map (fun t k => get v [b; t; k]) (seq 0 n).
  (** the matrices of row [b] of the input, in order *)
  Definition row_mats (core : tensor K) (bias : option (tensor K)) (uniform : bool)
    (n d D : nat) (x : tin K) (b : nat) : list (nat * mat K) :=
    match x with
    | TLong ix => sites D (letter_site core uniform bias) 0 (row_letters ix n b)
    | TFloat v => sites D (vec_site d core uniform bias) 0 (row_vectors v n b)
    end.
  (** the amplitude of row [b] of the input *)
  Definition row_amp (core edge : tensor K) (bias : option (tensor K)) (uniform : bool)
    (n d D : nat) (x : tin K) (b : nat) : K :=
    match x with
    | TLong ix => amplitude D (edge_at edge 0) (edge_at edge 1)
                    (letter_site core uniform bias) (row_letters ix n b)
    | TFloat v => amplitude D (edge_at edge 0) (edge_at edge 1)
                    (vec_site d core uniform bias) (row_vectors v n b)
    end.
  (** What must vanish for row [b] to be lost to a division by zero: the product of the left
      boundary vector with all matrices (slim_eval), the product of the matrices alone
      (parallel_eval, at least two sites), or the amplitude itself (default). *)
  Definition row_lost (core edge : tensor K) (bias : option (tensor K)) (uniform : bool)
    (n d D : nat) (x : tin K) (slim par : bool) (b : nat) : Prop :=
    let M := chain (row_mats core bias uniform n d D x b) in
    if slim then forall j, j < D -> vmul D (edge_at edge 0) M j = s0
    else if par then 2 <= n /\ forall i j, i < D -> j < D -> M i j = s0
    else row_amp core edge bias uniform n d D x b = s0.
  (** well-formed input batches: [batch] rows of length [n] over the alphabet 0..d-1,
      or [batch] rows of [n] feature vectors of length [d] *)
  Definition wf_input (x : tin K) (batch n d : nat) : Prop :=
    match x with
    | TLong ix => shp ix = [batch; n] /\
        forall b t, b < batch -> t < n -> (0 <= get ix [b; t] < Z.of_nat d)%Z
    | TFloat v => shp v = [batch; n; d]
    end.
End ModelSpec.
Arguments entry {K}. Arguments bias_at {K}. Arguments letter_site {K}. Arguments vec_site {K}.
Arguments edge_at {K}. Arguments row_vectors {K}. Arguments row_mats {K}. Arguments row_amp {K}. Arguments row_lost {K}. Arguments wf_input {K}.
