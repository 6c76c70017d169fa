(** * Base: exceptions as values, small list helpers.
    Nothing here models a particular function of /repo; it is the vocabulary in
    which Python control flow (raise / assert / return) is written. *)
From Coq Require Export List Arith Lia Bool Ascii String ZArith.
Export ListNotations.
Open Scope list_scope.
Open Scope nat_scope.

(** Python exception classes that the modelled code can raise. *)
Inductive exn :=
| AssertionError | ValueError | RuntimeError | TypeError
| IndexError | KeyError | AttributeError | NotImplementedError
| ZeroDivisionError | NameError
| OutOfFuel (* not a Python exception: a bounded loop of the model ran out of fuel;
               the theorems show it never happens *)
| NotANumber (* not a Python exception: the code goes on with entries that are NaN, which the
                model of the adaptive mode does not follow (Adaptive.v) *).

(** The outcome of a Python call: a value or a raised exception. *)
Inductive res (A : Type) :=
| Ok (a : A)
| Err (e : exn).
Arguments Ok {A} a.
Arguments Err {A} e.

Definition rbind {A B} (m : res A) (k : A -> res B) : res B :=
  match m with Ok a => k a | Err e => Err e end.
Notation "'let*' x := m 'in' k" := (rbind m (fun x => k))
  (at level 200, x pattern, m at level 100, k at level 200, right associativity).

(** [assert b] *)
Definition assert_ (b : bool) : res unit :=
  if b then Ok tt else Err AssertionError.

Lemma rbind_Ok {A B} (a : A) (k : A -> res B) : rbind (Ok a) k = k a.
Proof. reflexivity. Qed.
Lemma rbind_inv {A B} (m : res A) (k : A -> res B) b :
  rbind m k = Ok b -> exists a, m = Ok a /\ k a = Ok b.
Proof. destruct m; simpl; intros H; [eauto | discriminate]. Qed.
Lemma assert_inv b u : assert_ b = Ok u -> b = true.
Proof. destruct b; simpl; congruence. Qed.
Lemma assert_true b : b = true -> assert_ b = Ok tt.
Proof. intros ->; reflexivity. Qed.
Lemma assert_false b : b = false -> assert_ b = Err AssertionError.
Proof. intros ->; reflexivity. Qed.

(** Sequencing a list of results, left to right (first exception wins). *)
Fixpoint rmap {A B} (f : A -> res B) (l : list A) : res (list B) :=
  match l with
  | [] => Ok []
  | x :: xs => let* y := f x in let* ys := rmap f xs in Ok (y :: ys)
  end.

Fixpoint rfold {A B} (f : B -> A -> res B) (b : B) (l : list A) : res B :=
  match l with
  | [] => Ok b
  | x :: xs => let* b' := f b x in rfold f b' xs
  end.

(** Last [k] elements, and all but the last [k]. *)
Definition lastn {A} (k : nat) (l : list A) : list A := skipn (List.length l - k) l.
Definition droplast {A} (k : nat) (l : list A) : list A := firstn (List.length l - k) l.

Lemma droplast_app {A} (b s : list A) k :
  List.length s = k -> droplast k (b ++ s) = b.
Proof.
  intros <-. unfold droplast. rewrite app_length.
  replace (List.length b + List.length s - List.length s) with (List.length b + 0) by lia.
  rewrite firstn_app_2. simpl. apply app_nil_r.
Qed.
Lemma lastn_app {A} (b s : list A) k :
  List.length s = k -> lastn k (b ++ s) = s.
Proof.
  intros <-. unfold lastn. rewrite app_length.
  replace (List.length b + List.length s - List.length s) with (List.length b) by lia.
  rewrite skipn_app, skipn_all, Nat.sub_diag. reflexivity.
Qed.
Lemma droplast_lastn {A} k (l : list A) : droplast k l ++ lastn k l = l.
Proof. apply firstn_skipn. Qed.
Lemma lastn_length {A} k (l : list A) : k <= List.length l -> List.length (lastn k l) = k.
Proof. intros; unfold lastn; rewrite skipn_length; lia. Qed.
Lemma droplast_length {A} k (l : list A) : List.length (droplast k l) = List.length l - k.
Proof. unfold droplast; rewrite firstn_length; lia. Qed.
Lemma droplast_0 {A} (l : list A) : droplast 0 l = l.
Proof. unfold droplast; rewrite Nat.sub_0_r; apply firstn_all. Qed.
Lemma lastn_0 {A} (l : list A) : lastn 0 l = [].
Proof. unfold lastn; rewrite Nat.sub_0_r; apply skipn_all. Qed.
Lemma lastn_all {A} (l : list A) k : List.length l = k -> lastn k l = l.
Proof. intros <-; unfold lastn; rewrite Nat.sub_diag; reflexivity. Qed.

(** Python truthiness helper: equality of shapes. *)
Fixpoint list_eqb (a b : list nat) : bool :=
  match a, b with
  | [], [] => true
  | x :: a', y :: b' => (x =? y) && list_eqb a' b'
  | _, _ => false
  end.
Lemma list_eqb_eq a b : list_eqb a b = true <-> a = b.
Proof.
  revert b; induction a as [|x a IH]; destruct b; simpl; split; intros H;
    try congruence; try discriminate.
  - apply andb_true_iff in H as [H1 H2]. apply Nat.eqb_eq in H1. apply IH in H2. congruence.
  - inversion H; subst. rewrite Nat.eqb_refl. simpl. apply IH. reflexivity.
Qed.
Lemma list_eqb_refl a : list_eqb a a = true.
Proof. apply list_eqb_eq; reflexivity. Qed.
