(** * InputSpec: what ProbMPS and ProbUnifMPS do with an arbitrary input tensor.
    Part of the specification: mentions the shapes and entries of the input and of the parameters,
    none of the modelled functions. *)
From Coq Require Import Reals.
From Verif Require Import Base Scalars Tensor Utils2 MpsBase Spec ModelSpec.

Section InputSpec.
  Variable K : numfield.
  (** the sizes of the input: rows, length, features *)
  Definition x_modes (x : tin K) : nat := List.length (tin_shp x).
  Definition x_rows (x : tin K) : nat := nth 0 (tin_shp x) 0.
  Definition x_len (x : tin K) : nat := nth 1 (tin_shp x) 0.
  Definition x_feat (x : tin K) : nat := nth 2 (tin_shp x) 0.
  (** letters are integers from -d to d-1 *)
  Definition letter_ok (d : nat) (z : Z) : bool := ((- Z.of_nat d <=? z) && (z <? Z.of_nat d))%Z.
  (** equal sizes, or one of them is 1 *)
  Definition fits (a b : nat) : bool := (a =? b) || (a =? 1) || (b =? 1).

  (** The exception raised when the matrices are selected, if there is one.  [n], [d]: the length
      (of a ProbMPS) and the input dimension the model was built for. *)
  Definition unreadable (uniform : bool) (n d : nat) (x : tin K) : option exn :=
    match x with
    | TLong ix =>
        if x_modes x =? 3 then Some RuntimeError
        else if forallb (fun b => forallb (fun t => letter_ok d (get ix [b; t]) && (uniform || (t <? n)))
                                    (seq 0 (x_len x))) (seq 0 (x_rows x))
        then None else Some IndexError
    | TFloat v =>
        if x_modes x =? 2 then Some IndexError
        else if (uniform || fits (x_len x) n) && fits (x_feat x) d then None else Some RuntimeError
    end.
  (** The exception with which an input is rejected, if it is *)
  Definition rejection (uniform has_bias slim : bool) (n d : nat) (x : tin K) : option exn :=
    if uniform && (x_modes x <? 2) then Some ValueError
    else if slim && has_bias then Some ValueError
    else if slim && (x_modes x <? 2) then Some IndexError
    else if negb ((x_modes x =? 2) || (x_modes x =? 3)) then Some AssertionError
    else if slim && negb uniform && negb (x_len x =? n) then Some AssertionError
    else if slim && (x_modes x =? 3) && negb (x_feat x =? d) then Some AssertionError
    else unreadable uniform n d x.

  (** The number of matrices that an accepted input selects: its length, except that a single
      feature vector is used at every site of a ProbMPS. *)
  Definition used_len (uniform : bool) (n : nat) (x : tin K) : nat :=
    match x with
    | TLong _ => x_len x
    | TFloat _ => if uniform then x_len x else if x_len x =? 1 then n else x_len x
    end.
  (** axes of size 1 are read at 0 *)
  Definition at1 (size k : nat) : nat := if size =? 1 then 0 else k.
  (** The matrix of row [b] at site [t]: letters count modulo d (negative ones from the end of the
      alphabet); feature vectors weight the matrices of the core. *)
  Definition used_site (core : tensor K) (uniform : bool) (n d : nat) (x : tin K) (b t : nat) : mat K :=
    fun i j =>
    match x with
    | TLong ix => entry core uniform t (Z.to_nat (get ix [b; t] mod Z.of_nat d)) i j
    | TFloat v =>
        bsum (if x_feat x =? 1 then d else x_feat x) (fun k =>
          smul (get v [b; at1 (x_len x) t; at1 (x_feat x) k]) (entry core uniform (at1 n t) (at1 d k) i j))
    end.
  (** the matrices of row [b], in order, with the bias added *)
  Definition used_row (core : tensor K) (bias : option (tensor K)) (uniform : bool) (n d D : nat) (x : tin K) (b : nat)
    : list (nat * mat K) :=
    map (fun t => (D, fun i j => sadd (used_site core uniform n d x b t i j) (bias_at bias i j)))
        (seq 0 (used_len uniform n x)).
  Definition used_amp (core edge : tensor K) (bias : option (tensor K)) (uniform : bool) (n d D : nat) (x : tin K) (b : nat) : K :=
    sandwich D D (edge_at edge 0) (chain (used_row core bias uniform n d D x b)) (edge_at edge 1).
  (** the row is lost to a division by zero (see ModelSpec.row_lost) *)
  Definition used_lost (core edge : tensor K) (bias : option (tensor K)) (uniform : bool) (n d D : nat) (x : tin K)
    (slim par : bool) (b : nat) : Prop :=
    let M := chain (used_row core bias uniform n d D x b) in
    if slim then forall j, j < D -> vmul D (edge_at edge 0) M j = s0
    else if par then 2 <= used_len uniform n x /\ forall i j, i < D -> j < D -> M i j = s0
    else used_amp core edge bias uniform n d D x b = s0.
End InputSpec.
Arguments x_modes {K}. Arguments x_rows {K}. Arguments x_len {K}. Arguments x_feat {K}.
Arguments unreadable {K}. Arguments rejection {K}. Arguments used_len {K}. Arguments used_site {K}. Arguments used_row {K}. Arguments used_amp {K}. Arguments used_lost {K}.
