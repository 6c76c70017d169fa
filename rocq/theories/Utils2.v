(** * Utils2: model of torchmps/utils2.py *)
From Coq Require Import Reals.
From Verif Require Import Base Scalars Tensor.

(** A [TensorSeq] argument (utils2.py:30): one tensor or a sequence of tensors. *)
Inductive tseq (A : Type) := TOne (t : tensor A) | TMany (l : list (tensor A)).
Arguments TOne {A}. Arguments TMany {A}.

(** utils2.py:33-55 [bundle_tensors], for the only value of [dim] the code base
    uses, dim=-3 (mps_base.py:179).  torch.stack with dim=-3 needs at least two
    axes in the stacked tensors (IndexError otherwise). *)
Definition bundle_tensors {A} (m : tseq A) : res (tseq A) :=
  match m with
  | TOne t => Ok (TOne t)
  | TMany [] => Ok (TMany [])
  | TMany (t0 :: r) =>
      if forallb (fun t => list_eqb (shp t) (shp t0)) r then
        if ndim t0 <? 2 then Err IndexError
        else let* s := stackE 2 (t0 :: r) in Ok (TOne s)
      else Ok (TMany (t0 :: r))
  end.

(** utils2.py:153-157, the inner loop over one shape: [out] is the list of the
    trailing [len(shp)] entries of the accumulator, updated in place. *)
Fixpoint sb_step (s out : list nat) : res (list nat) :=
  match s, out with
  | x :: s', o :: out' =>
      let* o' := (if negb (x =? 1) && negb (x =? o)
                  then (if negb (o =? 1) then Err ValueError else Ok x)
                  else Ok o) in
      let* r := sb_step s' out' in Ok (o' :: r)
  | _, _ => Ok out
  end.
(** utils2.py:150-157, one iteration of the outer loop (negative indices count
    from the end of the accumulator). *)
Definition sb_one (out s : list nat) : res (list nat) :=
  let k := List.length out - List.length s in
  let* r := sb_step s (skipn k out) in Ok (firstn k out ++ r).
(** utils2.py:148 [max(shape_list, key=len)]: position of the first longest shape. *)
Fixpoint argmax_len (l : list (list nat)) : nat :=
  match l with
  | [] => 0
  | s :: r =>
      if forallb (fun s' => List.length s' <=? List.length s) r then 0
      else S (argmax_len r)
  end.
(** utils2.py:134-158 [shape_broadcast].  [shp is max_shp] (object identity) is
    modelled as "same position in the list"; if the same tuple object occurs
    twice the code skips both, the model only one (the skipped iteration would
    not change the accumulator). *)
Definition shape_broadcast (l : list (list nat)) : res (list nat) :=
  match l with
  | [] => Err ValueError
  | _ =>
      let m := argmax_len l in
      rfold sb_one (nth m l []) (firstn m l ++ skipn (S m) l)
  end.

(** utils2.py:122-123 [safe_expand] *)
Definition safe_expand {A} (t : tensor A) (s : list nat) : res (tensor A) :=
  match s with [] => Ok t | _ => expand t s end.
(** utils2.py:79-131 [batch_broadcast].  [num_nonbatch] is a list of naturals, so
    the assertion i >= 0 (line 104) holds by typing; [not isinstance(tens_list,
    Tensor)] (line 102) holds by typing. *)
Definition batch_broadcast {A} (ts : list (tensor A)) (nnb : list nat)
  : res (list (tensor A)) :=
  let* _ := assert_ (List.length ts =? List.length nnb) in
  let* _ := assert_ (forallb (fun p => snd p <=? ndim (fst p)) (combine ts nnb)) in
  if List.length ts <? 2 then Ok ts
  else
    let bs := map (fun p => droplast (snd p) (shp (fst p))) (combine ts nnb) in
    let* full := shape_broadcast bs in
    let bdims := List.length full in
    let ts' := map (fun p => unsq_front (bdims + snd p - ndim (fst p)) (fst p))
                   (combine ts nnb) in
    rmap (fun t => safe_expand t (full ++ skipn bdims (shp t))) ts'.
(** utils2.py:58-76 [batch_to]; the uninitialised reference tensor only has a
    shape that matters. *)
Definition batch_to {A} (t : tensor A) (bsh : list nat) (nnb : nat) : res (tensor A) :=
  let ref := mkT bsh (fun _ => get t []) in
  let* l := batch_broadcast [t; ref] [nnb; 0] in
  match l with o :: _ => Ok o | [] => Err IndexError end.

(** exp(2j*pi*u) for a real u *)
Definition phase (u : R) : cplx := (cos (2 * PI * u), sin (2 * PI * u)).
(** utils2.py:161-165 [phaseify]; [u] is the sample drawn by torch.rand_like,
    an arbitrary tensor of the same shape. *)
Definition phaseify (t : tensor cplx) (u : tensor R) : tensor cplx :=
  mkT (shp t) (fun i => c_mul (get t i) (phase (get u i))).

Section Real.
  Variable K : numfield.
  (** value of a real tensor entry as a real register *)
  Definition xre (z : xnum K) : xreal :=
    match z with Fin z => XFin (nre K z) | Bad => XNaN end.
  (** the test of utils2.py:186, allclose(imag, 0, atol=1e-4): the relative
      tolerance multiplies |0|; NaN and inf compare unequal *)
  Definition imag_small (z : xnum K) : bool :=
    match z with
    | Fin z => if Rle_dec (Rabs (nim K z)) (/ 10000) then true else false
    | Bad => false
    end.
  (** utils2.py:179-189 [realify] *)
  Definition realify (t : tensor (xnum K)) : res (tensor xreal) :=
    if ncplx K then
      let* _ := assert_ (tall imag_small t) in Ok (tmap xre t)
    else Ok (tmap xre t).
  (** torch.trace: sum of the main diagonal of a 2-mode tensor, as a 0-mode tensor *)
  Definition ttrace (t : tensor (xnum K)) : res (tensor (xnum K)) :=
    match shp t with
    | [m; n] => Ok (mkT [] (fun _ => bsum (S := xn_ops K) (Nat.min m n) (fun i => get t [i; i])))
    | _ => Err RuntimeError
    end.
  (** utils2.py:168-176 [hermitian_trace] *)
  Definition hermitian_trace (t : tensor (xnum K)) : res (tensor xreal) :=
    let* tr := ttrace t in
    if ncplx K then realify tr else Ok (tmap xre tr).
End Real.

(** torch.floor of a real number *)
Definition rfloor (r : R) : Z := (up r - 1)%Z.
(** utils2.py:192-198 [floor2] on one positive element: 2 ** floor(log(x)), with
    the natural logarithm, as in the source *)
Definition floor2 (x : R) : R := powerRZ 2 (rfloor (ln x)).
