(** * UtilsSpec: vocabulary for the properties of torchmps/utils.py.
    Independent of the model's own helpers. *)
From Coq Require Import Reals Permutation.
From Verif Require Import Base Scalars Tensor.

(** The entry of the list [l] at the position of the label [c] in [bs]: the size of the axis
    labelled [c] when [l] is a shape, the coordinate along it when [l] is an index. *)
Fixpoint coord (bs : list ascii) (c : ascii) (l : list nat) : nat :=
  match bs, l with
  | x :: bs', n :: l' => if Ascii.eqb x c then n else coord bs' c l'
  | _, _ => 0
  end.
(** label [c] stands to the left of label [c'] *)
Definition label_before (c c' : ascii) (bs : list ascii) : Prop :=
  exists u v w, bs = u ++ c :: v ++ c' :: w.

(** images *)
Definition row_constant (L : nat) (t : tensor nat) : Prop :=
  shp t = [L; L] /\ forall i j j', i < L -> j < L -> j' < L -> get t [i; j] = get t [i; j'].
Definition col_constant (L : nat) (t : tensor nat) : Prop :=
  shp t = [L; L] /\ forall i i' j, i < L -> i' < L -> j < L -> get t [i; j] = get t [i'; j].
Definition zero_one (t : tensor nat) : Prop := forall i, valid (shp t) i -> get t i = 0 \/ get t i = 1.
Definition not_constant (t : tensor nat) : Prop :=
  exists i j, valid (shp t) i /\ valid (shp t) j /\ get t i <> get t j.
Definition count_occ_nat (l : list nat) (x : nat) : nat := count_occ Nat.eq_dec l x.

(** ** svd_flex *)
(** An assignment gives every label a value; the index of a tensor whose axes are labelled
    [ls] is then [map sg ls], its shape [map size ls]. *)
Definition upd (f : ascii -> nat) (c : ascii) (n : nat) : ascii -> nat := fun x => if Ascii.eqb x c then n else f x.
Definition within_sizes (size sg : ascii -> nat) (ls : list ascii) : Prop := forall x, In x ls -> sg x < size x.
(** position of an index in row-major order *)
Definition position (sizes idx : list nat) : nat := fold_left (fun acc p => acc * fst p + snd p) (combine sizes idx) 0.
Definition volume (sizes : list nat) : nat := fold_left Nat.mul sizes 1.
(** [A] is the matrix of [T], whose axes are labelled [ls], for row labels [lr] and column labels [lc] *)
Definition matrix_of (size : ascii -> nat) (T : tensor R_ops) (ls lr lc : list ascii) (A : tensor R_ops) : Prop :=
  shp A = [volume (map size lr); volume (map size lc)] /\
  forall sg, within_sizes size sg ls ->
    get A [position (map size lr) (map sg lr); position (map size lc) (map sg lc)] = get T (map sg ls).
(** a (reduced) singular value decomposition: U diag(S) V^T, singular values in descending
    order (torch.svd) *)
Record is_svd (m n : nat) (A U V : nat -> nat -> R) (S : nat -> R) : Prop := {
  svd_orth_U : forall p q, p < Nat.min m n -> q < Nat.min m n ->
    bsum (S := R_ops) m (fun i => (U i p * U i q)%R) = if p =? q then 1%R else 0%R;
  svd_orth_V : forall p q, p < Nat.min m n -> q < Nat.min m n ->
    bsum (S := R_ops) n (fun j => (V j p * V j q)%R) = if p =? q then 1%R else 0%R;
  svd_nonneg : forall p, p < Nat.min m n -> (0 <= S p)%R;
  svd_desc : forall p q, p <= q -> q < Nat.min m n -> (S q <= S p)%R;
  svd_product : forall i j, i < m -> j < n ->
    A i j = bsum (S := R_ops) (Nat.min m n) (fun p => (U i p * S p * V j p)%R) }.
(** number of p < n with S p >= cutoff *)
Fixpoint count_ge (cutoff : R) (S : nat -> R) (n : nat) : nat :=
  match n with 0 => 0 | Datatypes.S m => count_ge cutoff S m + if Rle_dec cutoff (S m) then 1 else 0 end.
Definition rsum (l : list R) : R := fold_right Rplus 0%R l.
(** a well-formed svd_string "init->left,right" (spaces allowed): lowercase labels without
    repetitions, [c] the new bond, the other labels of left and right partition those of init *)
Record svd_labels (s : string) (init left right : list ascii) (c : ascii) : Prop := {
  lab_string : filter (fun x => negb (Ascii.eqb x " "%char)) (list_ascii_of_string s)
               = init ++ ["-"; ">"]%char ++ left ++ [","%char] ++ right;
  lab_lower : forall x, In x (init ++ left ++ right) -> 97 <= nat_of_ascii x <= 122;
  lab_nodup_init : NoDup init; lab_nodup_left : NoDup left; lab_nodup_right : NoDup right;
  lab_bond_left : In c left; lab_bond_right : In c right; lab_bond_init : ~ In c init;
  lab_partition : Permutation init (remove ascii_dec c left ++ remove ascii_dec c right) }.
(** the entry of the contraction of two tensors labelled [left] and [right] over the label [c]
    of size [d], for the values [sg] of the other labels *)
Definition contract (Lt Rt : tensor R_ops) (left right : list ascii) (c : ascii) (d : nat) (sg : ascii -> nat) : R :=
  bsum (S := R_ops) d (fun p => (get Lt (map (upd sg c p) left) * get Rt (map (upd sg c p) right))%R).
(** the dimension of the new bond: max_D if it is given (and not 0), else the rank *)
Definition new_dim (max_D : option nat) (rank : nat) : nat := match max_D with Some (S d) => S d | _ => rank end.
(** the number of singular values that are looked at *)
Definition spectrum_len (max_D : option nat) (k : nat) : nat := match max_D with Some (S d) => S d | _ => k end.
(** the assignment that reads the index [idx] of a tensor labelled [ls] *)
Definition reading (ls : list ascii) (idx : list nat) : ascii -> nat := fun x => coord ls x idx.
