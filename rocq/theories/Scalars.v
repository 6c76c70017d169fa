(** * Scalars: the number systems in which the code is interpreted.
    [sops] is the bare interface (0, 1, +, times) that tensor contractions need;
    [cring] adds the commutative-ring laws; [numfield] is "a torch floating
    dtype read exactly": the reals or the complex numbers. *)
From Coq Require Import Ring_theory Ring Reals Lra.
From Verif Require Import Base.

Record sops := mkOps {
  car :> Type; s0 : car; s1 : car;
  sadd : car -> car -> car; smul : car -> car -> car; ssub : car -> car -> car }.
Arguments s0 {s}. Arguments s1 {s}. Arguments sadd {s}. Arguments smul {s}. Arguments ssub {s}.
Notation rsub := ssub (only parsing).

Record cring := mkRing {
  rops :> sops;
  ropp : rops -> rops;
  rth : ring_theory (@s0 rops) (@s1 rops) (@sadd rops) (@smul rops) (@ssub rops) ropp eq }.
Arguments ropp {c}.

(** Finite sums  sum_{k<n} f k. *)
Fixpoint bsum {S : sops} (n : nat) (f : nat -> S) : S :=
  match n with 0 => s0 | Datatypes.S m => sadd (bsum m f) (f m) end.

Lemma bsum_ext {S : sops} n (f g : nat -> S) :
  (forall k, k < n -> f k = g k) -> bsum n f = bsum n g.
Proof.
  induction n as [|n IH]; intros H; simpl; [reflexivity|].
  rewrite IH by (intros; apply H; lia). rewrite H by lia. reflexivity.
Qed.

Section RingSums.
  Variable K : cring.
  Add Ring Kring : (rth K).
  Implicit Types f g : nat -> K.

  Lemma bsum_0 n : bsum n (fun _ => s0 : K) = s0.
  Proof. induction n as [|n IH]; simpl; [reflexivity|]. rewrite IH; ring. Qed.
  Lemma bsum_zero n f : (forall k, k < n -> f k = s0) -> bsum n f = s0.
  Proof. intros H. rewrite (bsum_ext n f (fun _ => s0)) by exact H. apply bsum_0. Qed.
  Lemma bsum_add n f g : bsum n (fun k => sadd (f k) (g k)) = sadd (bsum n f) (bsum n g).
  Proof. induction n as [|n IH]; simpl; [ring|]. rewrite IH; ring. Qed.
  Lemma bsum_mul_l n c f : bsum n (fun k => smul c (f k)) = smul c (bsum n f).
  Proof. induction n as [|n IH]; simpl; [ring|]. rewrite IH; ring. Qed.
  Lemma bsum_mul_r n c f : bsum n (fun k => smul (f k) c) = smul (bsum n f) c.
  Proof. induction n as [|n IH]; simpl; [ring|]. rewrite IH; ring. Qed.
  Lemma bsum_swap n m (f : nat -> nat -> K) :
    bsum n (fun i => bsum m (fun j => f i j)) = bsum m (fun j => bsum n (fun i => f i j)).
  Proof.
    induction n as [|n IH]; simpl.
    - symmetry; apply bsum_0.
    - rewrite IH, bsum_add. reflexivity.
  Qed.
  Lemma bsum_delta n i f : i < n ->
    bsum n (fun k => if k =? i then f k else s0) = f i.
  Proof.
    induction n as [|n IH]; intros Hi; [lia|]. simpl.
    destruct (Nat.eqb_spec n i) as [->|Hne].
    - rewrite bsum_zero; [ring|]. intros k Hk.
      destruct (Nat.eqb_spec k i); [lia|reflexivity].
    - rewrite IH by lia. ring.
  Qed.
  Lemma bsum_split n m f : bsum (n + m) f = sadd (bsum n f) (bsum m (fun k => f (n + k))).
  Proof.
    induction m as [|m IH].
    - rewrite Nat.add_0_r. simpl. ring.
    - rewrite Nat.add_succ_r. simpl. rewrite IH. ring.
  Qed.
  Lemma bsum_mulsum n m f g :
    smul (bsum n f) (bsum m g) = bsum n (fun i => bsum m (fun j => smul (f i) (g j))).
  Proof.
    rewrite <- bsum_mul_r. apply bsum_ext; intros. symmetry; apply bsum_mul_l.
  Qed.
  (** sum over a product range, row-major *)
  Lemma bsum_prod n m f :
    bsum (n * m) f = bsum n (fun i => bsum m (fun j => f (i * m + j))).
  Proof.
    induction n as [|n IH]; [reflexivity|].
    replace (S n * m) with (n * m + m) by lia. rewrite bsum_split, IH. reflexivity.
  Qed.
End RingSums.

(** ** Reals as a ring *)
Definition R_ops : sops := mkOps R 0%R 1%R Rplus Rmult Rminus.
Definition R_cring : cring := mkRing R_ops Ropp RTheory.

Definition Z_ops : sops := mkOps Z 0%Z 1%Z Z.add Z.mul Z.sub.
Lemma Zth : ring_theory 0%Z 1%Z Z.add Z.mul Z.sub Z.opp eq.
Proof. constructor; intros; ring. Qed.
Definition Z_cring : cring := mkRing Z_ops Z.opp Zth.

(** ** Exact floating dtypes: the reals or the complex numbers *)
Record numfield := mkNum {
  nring :> cring;
  ncplx : bool;                         (* tensor.is_complex() *)
  nconj : nring -> nring;               (* .conj() *)
  nabs : nring -> R;                    (* .abs() *)
  nofR : R -> nring;                    (* promotion of a real number *)
  nre : nring -> R;                     (* .real *)
  nim : nring -> R;                     (* .imag *)
  nof_add : forall x y, nofR (x + y) = sadd (nofR x) (nofR y);
  nof_mul : forall x y, nofR (x * y) = smul (nofR x) (nofR y);
  nof_0 : nofR 0 = s0;
  nof_1 : nofR 1 = s1;
  nre_of : forall x, nre (nofR x) = x;
  nim_of : forall x, nim (nofR x) = 0%R;
  nre_add : forall x y, nre (sadd x y) = (nre x + nre y)%R;
  nim_add : forall x y, nim (sadd x y) = (nim x + nim y)%R;
  nre_mul_of : forall x z, nre (smul (nofR x) z) = (x * nre z)%R;
  nim_mul_of : forall x z, nim (smul (nofR x) z) = (x * nim z)%R;
  nof_re : forall z, nim z = 0%R -> z = nofR (nre z);
  nreal : ncplx = false -> forall z, nim z = 0%R;
  nconj_add : forall x y, nconj (sadd x y) = sadd (nconj x) (nconj y);
  nconj_mul : forall x y, nconj (smul x y) = smul (nconj x) (nconj y);
  nconj_of : forall x, nconj (nofR x) = nofR x;
  nconj_conj : forall z, nconj (nconj z) = z;
  nabs_pos : forall z, (0 <= nabs z)%R;
  nabs_0 : forall z, nabs z = 0%R -> z = s0;
  nabs_mul : forall x y, nabs (smul x y) = (nabs x * nabs y)%R;
  nabs_of : forall x, nabs (nofR x) = Rabs x;
  nabs_sq : forall z, smul z (nconj z) = nofR (nabs z * nabs z) }.

Definition R_num : numfield.
Proof.
  refine (mkNum R_cring false (fun x => x) Rabs (fun x => x) (fun x => x) (fun _ => 0%R)
    _ _ _ _ _ _ _ _ _ _ _ _ _ _ _ _ _ _ _ _ _); simpl; intros; try reflexivity; try ring.
  - apply Rabs_pos.
  - destruct (Req_dec z 0) as [|Hn]; [assumption|].
    exfalso. apply Rabs_no_R0 in Hn. contradiction.
  - apply Rabs_mult.
  - rewrite <- Rabs_mult. symmetry. apply Rabs_pos_eq. apply Rle_0_sqr.
Defined.

(** ** Complex numbers as pairs of reals *)
Definition cplx : Type := (R * R)%type.
Definition c_add (x y : cplx) : cplx := (fst x + fst y, snd x + snd y)%R.
Definition c_mul (x y : cplx) : cplx :=
  (fst x * fst y - snd x * snd y, fst x * snd y + snd x * fst y)%R.
Definition c_opp (x : cplx) : cplx := (- fst x, - snd x)%R.
Definition c_sub (x y : cplx) : cplx := (fst x - fst y, snd x - snd y)%R.
Definition c_ofR (r : R) : cplx := (r, 0%R).
Definition c_conj (x : cplx) : cplx := (fst x, - snd x)%R.
Definition c_abs (x : cplx) : R := sqrt (fst x * fst x + snd x * snd x).
Definition C_ops : sops := mkOps cplx (c_ofR 0) (c_ofR 1) c_add c_mul c_sub.
Lemma Cth : ring_theory (c_ofR 0) (c_ofR 1) c_add c_mul c_sub c_opp eq.
Proof.
  constructor; intros; unfold c_add, c_mul, c_sub, c_opp, c_ofR; simpl;
    repeat match goal with x : cplx |- _ => destruct x end; simpl; f_equal; ring.
Qed.
Definition C_cring : cring := mkRing C_ops c_opp Cth.
Lemma c_sq_nonneg a b : (0 <= a * a + b * b)%R.
Proof. pose proof (Rle_0_sqr a). pose proof (Rle_0_sqr b). unfold Rsqr in *. lra. Qed.
Lemma c_abs_sq x : (c_abs x * c_abs x = fst x * fst x + snd x * snd x)%R.
Proof. apply sqrt_sqrt, c_sq_nonneg. Qed.
Definition C_num : numfield.
Proof.
  refine (mkNum C_cring true c_conj c_abs c_ofR fst snd
    _ _ _ _ _ _ _ _ _ _ _ _ _ _ _ _ _ _ _ _ _); simpl;
    unfold c_add, c_mul, c_conj, c_ofR; simpl; intros; try (f_equal; ring); try ring;
    try reflexivity.
  - destruct z; simpl in *; subst; reflexivity.
  - discriminate.
  - destruct z; simpl; f_equal; ring.
  - apply sqrt_pos.
  - destruct z as [a b]. unfold c_abs in H; simpl in H.
    apply sqrt_eq_0 in H; [|apply c_sq_nonneg].
    pose proof (Rle_0_sqr a). pose proof (Rle_0_sqr b). unfold Rsqr in *.
    assert (a * a = 0)%R by lra. assert (b * b = 0)%R by lra.
    destruct (Rmult_integral _ _ H2); destruct (Rmult_integral _ _ H3); subst; reflexivity.
  - unfold c_abs; simpl. rewrite <- sqrt_mult_alt by apply c_sq_nonneg. f_equal. ring.
  - unfold c_abs; simpl. replace (x * x + 0 * 0)%R with (Rsqr x) by (unfold Rsqr; ring).
    apply sqrt_Rsqr_abs.
  - rewrite c_abs_sq. f_equal; ring.
Defined.

(** ** Extended reals: IEEE special values, exact finite part *)
Inductive xreal := XFin (r : R) | XPInf | XNInf | XNaN.

Definition xadd (a b : xreal) : xreal :=
  match a, b with
  | XNaN, _ | _, XNaN => XNaN
  | XFin x, XFin y => XFin (x + y)
  | XFin _, c | c, XFin _ => c
  | XPInf, XPInf => XPInf
  | XNInf, XNInf => XNInf
  | XPInf, XNInf | XNInf, XPInf => XNaN
  end.
Definition xopp (a : xreal) : xreal :=
  match a with XFin x => XFin (- x) | XPInf => XNInf | XNInf => XPInf | XNaN => XNaN end.
(** scaling by a finite nonzero-sign-known constant: [c > 0] *)
Definition xscale (c : R) (a : xreal) : xreal :=
  match a with XFin x => XFin (c * x) | b => b end.
(** torch.log on reals *)
Definition xlog (a : xreal) : xreal :=
  match a with
  | XFin x => if Rlt_dec 0 x then XFin (ln x) else if Req_EM_T x 0 then XNInf else XNaN
  | XPInf => XPInf
  | XNInf | XNaN => XNaN
  end.
(** torch.exp on reals *)
Definition xexp (a : xreal) : xreal :=
  match a with XFin x => XFin (exp x) | XPInf => XPInf | XNInf => XFin 0 | XNaN => XNaN end.
(** division of a real register by a finite nonnegative constant (IEEE: the
    divisor 0.0 is +0) *)
Definition xdivc (a : xreal) (c : R) : xreal :=
  match a with
  | XFin x => if Req_EM_T c 0 then
                (if Rlt_dec 0 x then XPInf else if Rlt_dec x 0 then XNInf else XNaN)
              else XFin (x / c)
  | b => b
  end.
Lemma xdivc_fin x c : c <> 0%R -> xdivc (XFin x) c = XFin (x / c).
Proof. intros H; simpl. destruct (Req_EM_T c 0); [contradiction|reflexivity]. Qed.
Definition xfinite (a : xreal) : bool := match a with XFin _ => true | _ => false end.

Definition xr_ops : sops := mkOps xreal (XFin 0) (XFin 1) xadd
  (fun a b => match a, b with XFin x, XFin y => XFin (x * y) | _, _ => XNaN end) (fun a b => xadd a (xopp b)).

(** ** Tensor entries of the probabilistic code: finite, or inf/nan *)
Inductive xnum (A : Type) := Fin (a : A) | Bad.
Arguments Fin {A} a. Arguments Bad {A}.

Definition xlift2 {A} (f : A -> A -> A) (x y : xnum A) : xnum A :=
  match x, y with Fin a, Fin b => Fin (f a b) | _, _ => Bad end.
Definition xlift1 {A B} (f : A -> B) (x : xnum A) : xnum B :=
  match x with Fin a => Fin (f a) | Bad => Bad end.
Definition xn_ops (S : sops) : sops :=
  mkOps (xnum S) (Fin s0) (Fin s1) (xlift2 sadd) (xlift2 smul) (xlift2 ssub).
Definition xnfinite {A} (x : xnum A) : bool := match x with Fin _ => true | Bad => false end.

Section XNum.
  Variable K : numfield.
  (** entry / real register: x/0 is inf or nan, x/inf is 0 *)
  Definition xdivr (z : xnum K) (r : xreal) : xnum K :=
    match z, r with
    | Fin z, XFin r => if Req_EM_T r 0 then Bad else Fin (smul z (nofR K (/ r)))
    | Fin _, XPInf | Fin _, XNInf => Fin s0
    | _, _ => Bad
    end.
  Definition xmulr (z : xnum K) (r : xreal) : xnum K :=
    match z, r with Fin z, XFin r => Fin (smul z (nofR K r)) | _, _ => Bad end.
  (** .abs(): the collapsed non-finite entry has abs NaN (the non-finite entries
      produced by the modelled code are 0/0 = NaN). *)
  Definition xabs (z : xnum K) : xreal :=
    match z with Fin z => XFin (nabs K z) | Bad => XNaN end.
End XNum.

Lemma bsum_xfin {S : sops} n (f : nat -> xnum S) (g : nat -> S) :
  (forall k, k < n -> f k = Fin (g k)) ->
  bsum (S := xn_ops S) n f = Fin (bsum n g).
Proof.
  induction n as [|n IH]; intros H; simpl; [reflexivity|].
  rewrite IH by (intros; apply H; lia). rewrite H by lia. reflexivity.
Qed.
Lemma bsum_xbad {S : sops} n (f : nat -> xnum S) k :
  k < n -> f k = Bad -> bsum (S := xn_ops S) n f = Bad.
Proof.
  induction n as [|n IH]; intros Hk H; simpl; [lia|].
  destruct (Nat.eq_dec k n) as [->|Hne].
  - rewrite H. destruct (bsum (S := xn_ops S) n f); reflexivity.
  - rewrite IH by (lia || assumption). reflexivity.
Qed.
Lemma bsum_xrfin n (f : nat -> xreal) (g : nat -> R) :
  (forall k, k < n -> f k = XFin (g k)) ->
  bsum (S := xr_ops) n f = XFin (bsum (S := R_ops) n g).
Proof.
  induction n as [|n IH]; intros H; simpl; [reflexivity|].
  rewrite IH by (intros; apply H; lia). rewrite H by lia. reflexivity.
Qed.
Lemma bsum_xrnan n (f : nat -> xreal) k :
  k < n -> f k = XNaN -> bsum (S := xr_ops) n f = XNaN.
Proof.
  induction n as [|n IH]; intros Hk H; simpl; [lia|].
  destruct (Nat.eq_dec k n) as [->|Hne].
  - rewrite H. destruct (bsum (S := xr_ops) n f); reflexivity.
  - rewrite IH by (lia || assumption). reflexivity.
Qed.

Lemma xlog_pos x : (0 < x)%R -> xlog (XFin x) = XFin (ln x).
Proof. intros H; simpl. destruct (Rlt_dec 0 x); [reflexivity|contradiction]. Qed.
Lemma xlog_0 : xlog (XFin 0) = XNInf.
Proof.
  simpl. destruct (Rlt_dec 0 0) as [H|_]; [exfalso; lra|].
  destruct (Req_EM_T 0 0); [reflexivity|congruence].
Qed.
