(** * MatSpec: what a matrix-sequence argument denotes.
    Part of the specification: only the tensor datatype and the [TensorSeq] type
    are used, none of the modelled functions. *)
From Verif Require Import Base Scalars Tensor Utils2 Spec.

(** Index with which a tensor of batch shape [sh] is read at the index [idx] of a
    broadcast batch shape: right-aligned, axes of size one are read at 0. *)
Definition bc_read (sh idx : list nat) : list nat :=
  map2 (fun d i => if d =? 1 then 0 else i) sh (skipn (List.length idx - List.length sh) idx).

(** The chain of matrices (each with its number of columns) that a TensorSeq
    denotes at batch index [b]. *)
Definition seq_mats {K : sops} (m : tseq K) (b : list nat) : list (nat * mat K) :=
  match m with
  | TOne t => map (fun p => (dimE 0 (shp t),
                  fun i j => get t (bc_read (droplast 3 (shp t)) b ++ [p; i; j])))
                (seq 0 (dimE 2 (shp t)))
  | TMany l => map (fun t => (dimE 0 (shp t),
                  fun i j => get t (bc_read (droplast 2 (shp t)) b ++ [i; j]))) l
  end.
(** The batch shapes involved. *)
Definition seq_batches {A} (m : tseq A) : list (list nat) :=
  match m with
  | TOne t => [droplast 3 (shp t)]
  | TMany l => map (fun t => droplast 2 (shp t)) l
  end.
Definition vec_batches {A} (v : option (tensor A)) : list (list nat) :=
  match v with Some t => [droplast 1 (shp t)] | None => [] end.
(** Compatible matrix shapes: d x ., . x ., ..., . x e. *)
Inductive compatible {A} : nat -> list (tensor A) -> nat -> Prop :=
| compat_nil d : compatible d [] d
| compat_cons B d n e t ts : shp t = B ++ [d; n] -> compatible n ts e -> compatible d (t :: ts) e.
Definition seq_shape {A} (m : tseq A) (d e : nat) : Prop :=
  match m with
  | TOne t => exists B L, shp t = B ++ [L; d; e] /\ (L <> 1 -> d = e)
  | TMany l => compatible d l e
  end.
Definition vec_shape {A} (v : option (tensor A)) (d : nat) : Prop :=
  match v with Some t => exists B, shp t = B ++ [d] | None => True end.
(** Value of a batch of vectors at a batch index *)
Definition vec_at {K : sops} (t : tensor K) (b : list nat) : vec K :=
  fun i => get t (bc_read (droplast 1 (shp t)) b ++ [i]).

(** Shape of the result without its batch axes: a boundary vector removes one axis. *)
Definition out_shape {A} (lv rv : option (tensor A)) (d e : nat) : list nat :=
  match lv, rv with
  | None, None => [d; e]
  | Some _, None => [e]
  | None, Some _ => [d]
  | Some _, Some _ => []
  end.
(** The exact product [lv . M_1 ... M_L . rv], entry by entry. *)
Definition exact_entry {K : sops} (m : tseq K) (lv rv : option (tensor K)) (d e : nat)
  (b r : list nat) : K :=
  let M := chain (seq_mats m b) in
  match lv, rv with
  | None, None => M (nth 0 r 0) (nth 1 r 0)
  | Some v, None => vmul d (vec_at v b) M (nth 0 r 0)
  | None, Some w => mulv e M (vec_at w b) (nth 0 r 0)
  | Some v, Some w => sandwich d e (vec_at v b) M (vec_at w b)
  end.
(** tensors with finite entries *)
Definition tlift {K : Type} (t : tensor K) : tensor (xnum K) := tmap Fin t.
Definition tslift {K : Type} (m : tseq K) : tseq (xnum K) :=
  match m with TOne t => TOne (tlift t) | TMany l => TMany (map tlift l) end.

(** Number of matrices and of boundary vectors; whether all matrices have the same shape
    (one stacked tensor, or a nonempty list of tensors of equal shape). *)
Definition n_mats {A} (m : tseq A) : nat :=
  match m with TOne t => dimE 2 (shp t) | TMany l => List.length l end.
Definition n_vecs {A} (lv rv : option (tensor A)) : nat :=
  match lv, rv with
  | None, None => 0
  | Some _, None | None, Some _ => 1
  | Some _, Some _ => 2
  end.
Definition same_shapes {A} (m : tseq A) : bool :=
  match m with
  | TOne _ => true
  | TMany [] => false
  | TMany (t :: r) => forallb (fun u => list_eqb (shp u) (shp t)) r
  end.
(** The parallel strategy needs equal shapes; it is used on request and for a matrix result. *)
Definition parallel {A} (m : tseq A) (lv rv : option (tensor A)) (par : bool) : bool :=
  same_shapes m && (par || (n_vecs lv rv =? 0)).
(** What must vanish for the result to be NaN.  Every matrix multiplication is followed by a
    division by the size of its result, except the multiplications with the boundary vectors
    in the parallel strategy: so it is the product of the matrices alone (parallel) or the
    complete product (sequential), provided there is at least one such multiplication. *)
Definition nan_case {K : sops} (m : tseq K) (lv rv : option (tensor K)) (par : bool) (d e : nat)
  (b : list nat) : Prop :=
  if parallel m lv rv par
  then 2 <= n_mats m /\ forall i j, i < d -> j < e -> chain (seq_mats m b) i j = s0
  else 2 <= n_mats m + n_vecs lv rv /\
       forall r, valid (out_shape lv rv d e) r -> exact_entry m lv rv d e b r = s0.
