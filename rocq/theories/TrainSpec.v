(** * TrainSpec: what the numbers printed by train_script.py mean.
    Part of the specification: speaks about images, labels and the contraction computed by the model
    (TmSpec), not about the modelled loops. *)
From Coq Require Import Reals.
From Verif Require Import Base Scalars Tensor Spec TorchMps TmSpec.

(** the number of elements of a list with a property *)
Inductive count (P : nat -> Prop) : list nat -> nat -> Prop :=
| count_nil : count P [] 0
| count_yes i l c : P i -> count P l c -> count P (i :: l) (S c)
| count_no i l c : ~ P i -> count P l c -> count P (i :: l) c.
(** [o] is the first of the [n] positions at which [f] is largest *)
Definition first_max (n : nat) (f : nat -> R) (o : nat) : Prop :=
  o < n /\ (forall o', o' < n -> (f o' <= f o)%R) /\ forall o', o' < o -> (f o' < f o)%R.
(** [l] is cut into the full batches [bs]; fewer than [b] elements are left over *)
Definition cuts (b : nat) (l : list nat) (bs : list (list nat)) (rest : list nat) : Prop :=
  l = List.concat bs ++ rest /\ Forall (fun x => List.length x = b) bs /\ List.length rest < b.

Section TrainSpec.
  Variables (pix : nat -> nat -> R) (lab : nat -> nat).
  Variables (N O D b : nat) (per : bool).
  Notation model := (mps R_cring).
  (** the score of image [i] for class [o]: each pixel v enters as the vector (v, 1 - v) *)
  Definition score (m : model) (i o : nat) : R :=
    let x := fun s k => if k =? 0 then pix i s else (1 - pix i s)%R in
    if per then ring_value (K := R_cring) N (m_label m) D 2 (weights_of m) x o
    else train_value (K := R_cring) N (m_label m) D 2 (weights_of m) x o.
  (** the label of image [i] is the class with the largest score *)
  Definition classifies (m : model) (i : nat) : Prop := first_max O (score m i) (lab i).
  (** the negative log softmax probability of the label *)
  Definition cross_entropy (m : model) (i : nat) : R :=
    (ln (fold_right Rplus 0 (map (fun o => exp (score m i o)) (seq 0 O))) - score m i (lab i))%R.
  Definition mean_loss (m : model) (idx : list nat) : R :=
    (fold_right Rplus 0 (map (cross_entropy m) idx) / INR (List.length idx))%R.
  (** [inputs] holds the pixels of the images [idx], one row per image *)
  Definition shows (idx : list nat) (inputs : tensor R_cring) : Prop :=
    shp inputs = [b; N] /\ forall r s, r < b -> s < N -> get inputs [r; s] = pix (nth r idx 0) s.
  Variable optst : Type.
  Variable opt : optst -> model -> tensor R_cring -> list nat -> optst * model.
  (** one pass over the batches [bs]: every batch is evaluated with the parameters left by the
      update of the previous one; [loss] adds the mean losses, [hits] the correct answers *)
  Inductive pass : optst -> model -> list (list nat) -> optst -> model -> R -> nat -> Prop :=
  | pass_end os m : pass os m [] os m 0%R 0
  | pass_batch os m idx bs inputs os' m' os2 m2 c loss hits :
      shows idx inputs -> count (classifies m) idx c -> opt os m inputs (map lab idx) = (os', m') ->
      pass os' m' bs os2 m2 loss hits ->
      pass os m (idx :: bs) os2 m2 (mean_loss m idx + loss)%R (c + hits).
End TrainSpec.
