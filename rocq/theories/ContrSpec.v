(** * ContrSpec: what a contractable means.
    A contractable is read as a (batch of) matrix/matrices, depending on an output index
    when it has one; edge vectors are one-row or one-column matrices. *)
From Verif Require Import Base Scalars Tensor Spec Contractables.

Section ContrSpec.
  Variable S : sops.
  (** [typed a B r c out]: [a] is a well-formed contractable for batch size [B], with [r] rows,
      [c] columns and, if [out = Some O], an output index of size [O] *)
  Inductive typed : atom S -> nat -> nat -> nat -> option nat -> Prop :=
  | T_left t B D : shp t = [B; D] -> typed (mkA KEdgeVec t "br") B 1 D None
  | T_right t B D : shp t = [B; D] -> typed (mkA KEdgeVec t "bl") B D 1 None
  | T_mat t B r c : shp t = [B; r; c] -> typed (mkA KSingleMat t "blr") B r c None
  | T_region t B n D : shp t = [B; n; D; D] -> 0 < n -> typed (mkA KMatRegion t "bslr") B D D None
  | T_core t B O r c : shp t = [B; O; r; c] -> typed (mkA KOutputCore t "bolr") B r c (Some O)
  | T_outmat t B D O : shp t = [B; D; O] -> typed (mkA KOutputMat t "blo") B D 1 (Some O)
  | T_outvec t B O D : shp t = [B; O; D] -> typed (mkA KBase t "bol") B D 1 (Some O)
  | T_out t B O : shp t = [B; O] -> typed (mkA KBase t "bo") B 1 1 (Some O)
  | T_scalar t B : shp t = [B] -> typed (mkA KScalar t "b") B 1 1 None.

  (** the matrix of batch element [b] and output index [o], entry (i,j) *)
  Definition meaning (a : atom S) (b o : nat) : mat S := fun i j =>
    let t := a_ten a in
    if String.eqb (a_bond a) "br" then get t [b; j]
    else if String.eqb (a_bond a) "bl" then get t [b; i]
    else if String.eqb (a_bond a) "blr" then get t [b; i; j]
    else if String.eqb (a_bond a) "bslr" then
      chain (map (fun s => (nth 2 (shp t) 0, fun p q => get t [b; s; p; q])) (seq 0 (nth 1 (shp t) 0))) i j
    else if String.eqb (a_bond a) "bolr" then get t [b; o; i; j]
    else if String.eqb (a_bond a) "blo" then get t [b; i; o]
    else if String.eqb (a_bond a) "bol" then get t [b; o; i]
    else if String.eqb (a_bond a) "bo" then get t [b; o]
    else get t [b].
  (** size of the output index, 1 when there is none *)
  Definition osize (out : option nat) : nat := match out with Some n => n | None => 1 end.

  (** [chain_typed B r l c out]: the list [l] of contractables composes: [r] rows at the left
      end, [c] columns at the right end, consecutive bonds agree, all of batch size [B], and
      at most one of them has an output index (of size [out]) *)
  Inductive chain_typed (B : nat) : nat -> list (atom S) -> nat -> option nat -> Prop :=
  | CT_nil r : chain_typed B r [] r None
  | CT_plain a l r m c out : typed a B r m None -> chain_typed B m l c out -> chain_typed B r (a :: l) c out
  | CT_out a l r m c O : typed a B r m (Some O) -> chain_typed B m l c None -> chain_typed B r (a :: l) c (Some O).
  (** number of columns of a contractable *)
  Definition ncols (a : atom S) : nat :=
    let s := shp (a_ten a) in
    if String.eqb (a_bond a) "br" then nth 1 s 0
    else if String.eqb (a_bond a) "blr" then nth 2 s 0
    else if String.eqb (a_bond a) "bslr" then nth 3 s 0
    else if String.eqb (a_bond a) "bolr" then nth 3 s 0
    else 1.
  (** the ordered product of a list of contractables *)
  Definition product (l : list (atom S)) (b o : nat) : mat S :=
    chain (map (fun a => (ncols a, meaning a b o)) l).
End ContrSpec.
Arguments typed {S}. Arguments meaning {S}. Arguments chain_typed {S}. Arguments ncols {S}. Arguments product {S}.

(** the items allowed between the two ends of a chain, and at its right end *)
Definition is_mid_kind {S : sops} (a : atom S) : Prop :=
  (a_bond a = "blr"%string \/ a_bond a = "bslr"%string) \/ a_bond a = "bolr"%string.
Definition is_end_kind {S : sops} (a : atom S) : Prop := a_bond a = "bl"%string \/ a_bond a = "blo"%string.
