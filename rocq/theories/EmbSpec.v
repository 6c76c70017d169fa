(** * EmbSpec: specification vocabulary for embeddings.  Mentions the model only through
    the types of tensors, inputs, domains and embedding functions. *)
From Coq Require Import Reals.
From Verif Require Import Base Scalars Tensor Utils2 MpsBase Embeddings Spec ModelSpec.

Section EmbSpec.
  Variable K : numfield.
  (** [f] embeds every value of a discrete domain {0..M-1} as the vector [phi value] of
      length [d], elementwise, adding one axis at the end (the documented contract of
      embedding functions) *)
  Definition embeds_discrete (f : efun K) (M d : nat) (phi : nat -> nat -> K) : Prop :=
    forall ix : tensor Z, (forall i, valid (shp ix) i -> (0 <= get ix i < Z.of_nat M)%Z) ->
      shp (f (TLong ix)) = shp ix ++ [d] /\
      forall i k, valid (shp ix) i -> k < d -> get (f (TLong ix)) (i ++ [k]) = phi (Z.to_nat (get ix i)) k.
  (** the same on the real interval [a,b] *)
  Definition embeds_interval (f : efun K) (a b : R) (d : nat) (phi : R -> nat -> K) : Prop :=
    forall x : tensor R, (forall i, valid (shp x) i -> (a <= get x i <= b)%R) ->
      shp (f (TFloat (tmap (nofR K) x))) = shp x ++ [d] /\
      forall i k, valid (shp x) i -> k < d -> get (f (TFloat (tmap (nofR K) x))) (i ++ [k]) = phi (get x i) k.
  (** Lambda = sum_m wt_m phi_m phi_m^dagger *)
  Definition gram_matrix (M : nat) (wt : nat -> R) (phi : nat -> nat -> K) : mat K :=
    fun k k' => bsum M (fun m => smul (nofR K (wt m)) (smul (phi m k) (nconj K (phi m k')))).
  (** the absolute/relative tolerance 1e-8 + 1e-5 |y| of torch.allclose *)
  Definition within_tol (x y : K) : Prop :=
    (nabs K (rsub x y) <= / 100000000 + / 100000 * nabs K y)%R.
  (** the simplification of a d x d matrix to its diagonal or to a multiple of the identity
      loses nothing: an off-diagonal entry is visible above the tolerance; or all
      off-diagonal entries are exactly 0 and the diagonal entries are either all equal or
      visibly different from their mean *)
  Definition lossless (d : nat) (L : mat K) : Prop :=
    (exists k k', k < d /\ k' < d /\ k <> k' /\ ~ within_tol s0 (L k k')) \/
    ((forall k k', k < d -> k' < d -> k <> k' -> L k k' = s0) /\
     ((exists a, forall k, k < d -> L k k = a) \/
      (exists k, k < d /\ ~ within_tol (smul (bsum d (fun j => L j j)) (nofR K (/ INR d))) (L k k)))).
  (** the site matrices seen by the normalisation of a model with embedding vectors phi *)
  Definition emb_site (d : nat) (core : tensor K) (uniform : bool) (bias : option (tensor K))
    (phi : nat -> nat -> K) (t m : nat) : mat K :=
    vec_site d core uniform bias t (phi m).
End EmbSpec.
Arguments embeds_discrete {K}. Arguments embeds_interval {K}. Arguments gram_matrix {K}.
Arguments lossless {K}. Arguments within_tol {K}. Arguments emb_site {K}.

(** trapezoid weights of the grid pt 0 .. pt (n-1) *)
Definition trap_weight (n : nat) (pt : nat -> R) (k : nat) : R :=
  (((if S k <? n then pt (S k) - pt k else 0) + (if 0 <? k then pt k - pt (k - 1)%nat else 0)) / 2)%R.
(** the grid of torch.linspace(a, b, steps=n) *)
Definition grid (a b : R) (n k : nat) : R := (a + INR k * ((b - a) / INR (n - 1)))%R.
