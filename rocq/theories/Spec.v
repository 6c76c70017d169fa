(** * Spec: the mathematical objects the property theorems talk about.
    Nothing in this file mentions the model of the code: matrices are functions
    of two indices, sums are finite sums, probabilities are real numbers. *)
From Coq Require Import Reals.
From Verif Require Import Base Scalars.

(** ** Ordered products of matrices *)
Section Matrices.
  Variable K : sops.
  Definition mat := nat -> nat -> K.
  Definition vec := nat -> K.
  (** identity matrix *)
  Definition delta : mat := fun i j => if i =? j then s1 else s0.
  (** [(A B) i j] for an inner dimension [n] *)
  Definition mmul (n : nat) (A B : mat) : mat :=
    fun i j => bsum n (fun k => smul (A i k) (B k j)).
  (** [M_1 M_2 ... M_L]; each factor is given with its number of columns *)
  Fixpoint chain (ms : list (nat * mat)) : mat :=
    match ms with
    | [] => delta
    | (n, M) :: r => mmul n M (chain r)
    end.
  (** row vector times matrix, matrix times column vector, and the sandwich
      [v . M . w] *)
  Definition vmul (n : nat) (v : vec) (M : mat) : vec :=
    fun j => bsum n (fun i => smul (v i) (M i j)).
  Definition mulv (n : nat) (M : mat) (w : vec) : vec :=
    fun i => bsum n (fun j => smul (M i j) (w j)).
  Definition sandwich (m n : nat) (v : vec) (M : mat) (w : vec) : K :=
    bsum m (fun i => bsum n (fun j => smul (v i) (smul (M i j) (w j)))).
  (** sum over a finite list *)
  Definition lsum {X} (l : list X) (f : X -> K) : K :=
    fold_right (fun x a => sadd (f x) a) s0 l.
  (** trace *)
  Definition mtrace (n : nat) (M : mat) : K := bsum n (fun i => M i i).
End Matrices.
Arguments delta {K}. Arguments mmul {K}. Arguments chain {K}. Arguments vmul {K}.
Arguments mulv {K}. Arguments sandwich {K}. Arguments lsum {K X}. Arguments mtrace {K}.

(** All words of length [n] over the alphabet {0..d-1}. *)
Fixpoint words (d n : nat) : list (list nat) :=
  match n with
  | 0 => [[]]
  | S n' => flat_map (fun i => map (cons i) (words d n')) (seq 0 d)
  end.

(** ** Amplitudes of a matrix product state *)
Section Amplitude.
  Variable K : numfield.
  (** [site t x] is the matrix of site [t] for letter [x]; all bonds have size [D] *)
  Fixpoint sites {X} (D : nat) (site : nat -> X -> mat K) (t : nat) (xs : list X)
    : list (nat * mat K) :=
    match xs with
    | [] => []
    | x :: r => (D, site t x) :: sites D site (S t) r
    end.
  (** psi(x) = v . site_0(x_0) ... site_{n-1}(x_{n-1}) . w *)
  Definition amplitude {X} (D : nat) (v w : vec K) (site : nat -> X -> mat K) (xs : list X) : K :=
    sandwich D D v (chain (sites D site 0 xs)) w.
  Definition abs2 (z : K) : R := (nabs K z * nabs K z)%R.
  (** Z = sum over all words of |psi|^2 *)
  Definition partition_fn (d n D : nat) (v w : vec K) (site : nat -> nat -> mat K) : R :=
    lsum (K := R_ops) (words d n) (fun xs => abs2 (amplitude D v w site xs)).
  (** Z for embedded inputs: every site is summed over [m] points with weights *)
  Definition weight_of (wt : nat -> R) (xs : list nat) : R :=
    fold_right (fun x a => (wt x * a)%R) 1%R xs.
  Definition weighted_partition_fn (wt : nat -> R) (m n D : nat) (v w : vec K)
    (site : nat -> nat -> mat K) : R :=
    lsum (K := R_ops) (words m n)
      (fun xs => (weight_of wt xs * abs2 (amplitude D v w site xs))%R).
End Amplitude.
Arguments sites {K X}. Arguments amplitude {K X}. Arguments abs2 {K}.
Arguments partition_fn {K}. Arguments weighted_partition_fn {K}.

(** ** Extended reals as log probabilities *)
(** [is_log x p]: the extended real [x] is ln p, with ln 0 = -inf *)
Definition is_log (x : xreal) (p : R) : Prop :=
  (0 < p /\ x = XFin (ln p))%R \/ (p = 0%R /\ x = XNInf).
(** the probability denoted by a log probability *)
Definition prob_of (x : xreal) : R :=
  match x with XFin r => exp r | _ => 0%R end.

(** ** Trapezoid rule (the formula of numpy/torch.trapz) on the points
    [pt 0, ..., pt (n-1)], and its iteration over [len] variables *)
Definition trapezoid (n : nat) (pt : nat -> R) (g : nat -> R) : R :=
  bsum (S := R_ops) (n - 1) (fun k => ((pt (S k) - pt k) * (g k + g (S k)) / 2)%R).
Fixpoint iter_trapezoid (len n : nat) (pt : nat -> R) (g : list nat -> R) : R :=
  match len with
  | 0 => g []
  | S l => trapezoid n pt (fun k => iter_trapezoid l n pt (fun xs => g (k :: xs)))
  end.

(** ** NumPy broadcasting rule *)
(** size of a shape along the [k]-th axis from the right, missing axes are 1 *)
Definition axis (k : nat) (s : list nat) : nat := nth k (rev s) 1.
(** [s] is the broadcast shape of the list [l] *)
Definition is_broadcast (l : list (list nat)) (s : list nat) : Prop :=
  l <> [] /\
  (forall t, In t l -> List.length t <= List.length s) /\
  (exists t, In t l /\ List.length t = List.length s) /\
  forall k, k < List.length s ->
    (forall t, In t l -> axis k t = 1 \/ axis k t = axis k s) /\
    (exists t, In t l /\ axis k t = axis k s).
