(** * LinAlg: algebra of the matrix products of [Spec] over a commutative ring. *)
From Coq Require Import Ring_theory Ring Reals Lra Permutation.
From Verif Require Import Base Scalars Spec.

Section Lin.
  Variable K : cring.
  Add Ring Kr : (rth K).
  Notation matK := (mat K).
  Implicit Types (r a b ms acc : list (nat * mat K)).

  Lemma mmul_ext n (A A' B B' : matK) i j :
    (forall k, k < n -> A i k = A' i k) -> (forall k, k < n -> B k j = B' k j) ->
    mmul n A B i j = mmul n A' B' i j.
  Proof. intros HA HB. apply bsum_ext; intros k Hk. rewrite HA, HB by exact Hk. reflexivity. Qed.
  Lemma mmul_assoc n m (A B C : matK) i j :
    mmul m (mmul n A B) C i j = mmul n A (mmul m B C) i j.
  Proof.
    unfold mmul.
    transitivity (bsum m (fun k => bsum n (fun l => smul (smul (A i l) (B l k)) (C k j)))).
    { apply bsum_ext; intros k Hk. symmetry. apply bsum_mul_r. }
    rewrite bsum_swap. apply bsum_ext; intros l Hl.
    rewrite <- bsum_mul_l. apply bsum_ext; intros k Hk. ring.
  Qed.
  Lemma bsum_delta_r n j (f : nat -> K) : j < n ->
    bsum n (fun k => smul (f k) (delta k j)) = f j.
  Proof.
    intros Hj. rewrite <- (bsum_delta K n j f Hj). apply bsum_ext; intros k Hk.
    unfold delta. destruct (Nat.eqb_spec k j); ring.
  Qed.
  Lemma bsum_delta_l n i (f : nat -> K) : i < n ->
    bsum n (fun k => smul (delta i k) (f k)) = f i.
  Proof.
    intros Hi. rewrite <- (bsum_delta K n i f Hi). apply bsum_ext; intros k Hk.
    unfold delta. rewrite (Nat.eqb_sym i k). destruct (Nat.eqb_spec k i); ring.
  Qed.
  Lemma mmul_delta_r n (A : matK) i j : j < n -> mmul n A delta i j = A i j.
  Proof. intros Hj. apply (bsum_delta_r n j (fun k => A i k)); exact Hj. Qed.
  Lemma mmul_delta_l n (A : matK) i j : i < n -> mmul n delta A i j = A i j.
  Proof. intros Hi. apply (bsum_delta_l n i (fun k => A k j)); exact Hi. Qed.

  Lemma chain_cons n (M : matK) r i j : chain ((n, M) :: r) i j = mmul n M (chain r) i j.
  Proof. reflexivity. Qed.
  Lemma chain_single n (M : matK) i j : j < n -> chain [(n, M)] i j = M i j.
  Proof. intros Hj. simpl. apply mmul_delta_r; exact Hj. Qed.
  (** number of columns of the last factor *)
  Definition cols (d : nat) (ms : list (nat * matK)) : nat := fst (last ms (d, delta)).
  Lemma cols_cons d n M ms : cols d ((n, M) :: ms) = cols n ms.
  Proof.
    unfold cols. revert n M d. induction ms as [|[n' M'] ms IH]; intros n M d; [reflexivity|].
    change (last ((n, M) :: (n', M') :: ms) (d, delta)) with (last ((n', M') :: ms) (d, delta)).
    rewrite (IH n' M' d), (IH n' M' n). reflexivity.
  Qed.
  Lemma cols_nil d : cols d [] = d.
  Proof. reflexivity. Qed.
  Lemma cols_app d a b : cols d (a ++ b) = cols (cols d a) b.
  Proof.
    revert d; induction a as [|[n M] a IH]; intros d; [reflexivity|].
    rewrite <- app_comm_cons, !cols_cons. apply IH.
  Qed.
  (** only entries within range matter *)
  Fixpoint chain_eq (m : nat) (a b : list (nat * matK)) : Prop :=
    match a, b with
    | [], [] => True
    | (n, M) :: a', (n', M') :: b' =>
        n = n' /\ (forall i k, i < m -> k < n -> M i k = M' i k) /\ chain_eq n a' b'
    | _, _ => False
    end.
  Lemma chain_eq_chain m a b i j : chain_eq m a b -> i < m -> chain a i j = chain b i j.
  Proof.
    revert m b i; induction a as [|[n M] a IH]; intros m [|[n' M'] b] i; simpl;
      try contradiction; [reflexivity|].
    intros (-> & HM & Hab) Hi. apply mmul_ext.
    - intros k Hk. apply HM; assumption.
    - intros k Hk. apply (IH n'); assumption.
  Qed.
  Lemma chain_eq_refl m a : chain_eq m a a.
  Proof. revert m; induction a as [|[n M] a IH]; intros m; simpl; auto. Qed.

  (** absorbing the second factor into the first *)
  Lemma chain_absorb n n' (P M : matK) r i j :
    chain ((n, P) :: (n', M) :: r) i j = chain ((n', mmul n P M) :: r) i j.
  Proof. rewrite !chain_cons. symmetry. apply mmul_assoc. Qed.
  Lemma chain_app d a b i j : i < d ->
    chain (a ++ b) i j = mmul (cols d a) (chain a) (chain b) i j.
  Proof.
    revert d i; induction a as [|[n M] a IH]; intros d i Hi.
    - simpl. rewrite cols_nil. symmetry. apply mmul_delta_l; exact Hi.
    - rewrite cols_cons. rewrite <- app_comm_cons, !chain_cons.
      transitivity (mmul n M (mmul (cols n a) (chain a) (chain b)) i j).
      + apply mmul_ext; [reflexivity|]. intros k Hk. apply IH; exact Hk.
      + symmetry. apply mmul_assoc.
  Qed.
  Lemma chain_app_single a n M i j : a <> [] -> j < n ->
    chain (a ++ [(n, M)]) i j = mmul (cols 0 a) (chain a) M i j.
  Proof.
    intros Ha Hj. destruct a as [|[n0 M0] a]; [contradiction|].
    rewrite (chain_app (S i)) by lia.
    rewrite !cols_cons. apply mmul_ext; [reflexivity|]. intros k Hk.
    apply chain_single; exact Hj.
  Qed.

  (** zero products *)
  Lemma chain_zero n (P : matK) r i j :
    (forall k, k < n -> P i k = s0) -> chain ((n, P) :: r) i j = s0.
  Proof.
    intros H. rewrite chain_cons. unfold mmul. apply bsum_zero. intros k Hk.
    rewrite H by exact Hk. ring.
  Qed.

  (** scaling every factor *)
  Lemma mmul_scale n (a b : K) (A B : matK) i j :
    mmul n (fun i j => smul a (A i j)) (fun i j => smul b (B i j)) i j
    = smul (smul a b) (mmul n A B i j).
  Proof.
    unfold mmul. rewrite <- bsum_mul_l. apply bsum_ext; intros; ring.
  Qed.
  Definition scale_chain (ms : list (nat * (K * matK))) : list (nat * matK) :=
    map (fun p => (fst p, fun i j => smul (fst (snd p)) (snd (snd p) i j))) ms.
  Definition strip_chain (ms : list (nat * (K * matK))) : list (nat * matK) :=
    map (fun p => (fst p, snd (snd p))) ms.
  Lemma chain_scale (ms : list (nat * (K * matK))) i j :
    chain (scale_chain ms) i j
    = smul (fold_right (fun p (x : K) => smul (fst (snd p)) x) s1 ms) (chain (strip_chain ms) i j).
  Proof.
    revert i; induction ms as [|[n [c M]] ms IH]; intros i; simpl.
    - ring.
    - unfold mmul. rewrite <- bsum_mul_l. apply bsum_ext; intros k Hk.
      rewrite IH. ring.
  Qed.

  (** transposes *)
  Definition mtrans (A : matK) : matK := fun i j => A j i.
  Lemma mmul_trans n (A B : matK) i j :
    mmul n (mtrans B) (mtrans A) i j = mmul n A B j i.
  Proof. unfold mmul, mtrans. apply bsum_ext; intros; ring. Qed.
  (** reversing a chain: the factors are transposed and the column counts shift;
      [d] is the number of rows of the first factor *)
  Fixpoint rev_chain (d : nat) (ms : list (nat * matK)) (acc : list (nat * matK))
    : list (nat * matK) :=
    match ms with
    | [] => acc
    | (n, M) :: r => rev_chain n r ((d, mtrans M) :: acc)
    end.
  Lemma rev_chain_acc d ms acc : rev_chain d ms acc = rev_chain d ms [] ++ acc.
  Proof.
    revert d acc; induction ms as [|[n M] ms IH]; intros d acc; [reflexivity|].
    simpl. rewrite IH, (IH n [(d, mtrans M)]), <- app_assoc. reflexivity.
  Qed.
  Lemma cols_rev_chain d ms e : ms <> [] -> cols e (rev_chain d ms []) = d.
  Proof.
    intros H. destruct ms as [|[n M] r]; [contradiction|]. simpl.
    rewrite rev_chain_acc, cols_app, cols_cons. reflexivity.
  Qed.
  Lemma chain_rev d ms i j : i < d -> j < cols d ms ->
    chain (rev_chain d ms []) j i = chain ms i j.
  Proof.
    revert d i; induction ms as [|[n M] ms IH]; intros d i Hi Hj.
    - simpl. unfold delta. rewrite Nat.eqb_sym. reflexivity.
    - rewrite cols_cons in Hj. simpl rev_chain. rewrite rev_chain_acc.
      rewrite (chain_app (S j)) by lia. rewrite chain_cons.
      destruct ms as [|p ms].
      + simpl rev_chain. rewrite cols_nil in *.
        transitivity (chain [(d, mtrans M)] j i).
        { apply mmul_delta_l. lia. }
        rewrite chain_single by exact Hi. unfold mtrans. simpl.
        rewrite mmul_delta_r by exact Hj. reflexivity.
      + rewrite cols_rev_chain by discriminate.
        unfold mmul. apply bsum_ext; intros k Hk.
        rewrite IH by assumption.
        rewrite chain_single by exact Hi. unfold mtrans. ring.
  Qed.

  (** sums over lists *)
  Lemma lsum_nil {X} (f : X -> K) : lsum [] f = s0. Proof. reflexivity. Qed.
  Lemma lsum_cons {X} x l (f : X -> K) : lsum (x :: l) f = sadd (f x) (lsum l f).
  Proof. reflexivity. Qed.
  Lemma lsum_app {X} l1 l2 (f : X -> K) : lsum (l1 ++ l2) f = sadd (lsum l1 f) (lsum l2 f).
  Proof.
    induction l1 as [|x l1 IH]; cbn [app].
    - rewrite lsum_nil. ring.
    - rewrite !lsum_cons, IH. ring.
  Qed.
  Lemma lsum_ext {X} l (f g : X -> K) : (forall x, In x l -> f x = g x) -> lsum l f = lsum l g.
  Proof.
    induction l as [|x l IH]; intros H; [reflexivity|]. rewrite !lsum_cons.
    rewrite (H x) by (left; reflexivity). rewrite IH; [reflexivity|].
    intros y Hy; apply H; right; exact Hy.
  Qed.
  Lemma lsum_map {X Y} (g : X -> Y) l (f : Y -> K) : lsum (map g l) f = lsum l (fun x => f (g x)).
  Proof. induction l as [|x l IH]; [reflexivity|]. simpl map. rewrite !lsum_cons, IH. reflexivity. Qed.
  Lemma lsum_flat_map {X Y} (g : X -> list Y) l (f : Y -> K) :
    lsum (flat_map g l) f = lsum l (fun x => lsum (g x) f).
  Proof.
    induction l as [|x l IH]; [reflexivity|]. simpl flat_map.
    rewrite lsum_app, lsum_cons, IH. reflexivity.
  Qed.
  Lemma lsum_add {X} l (f g : X -> K) :
    lsum l (fun x => sadd (f x) (g x)) = sadd (lsum l f) (lsum l g).
  Proof. induction l as [|x l IH]; [rewrite !lsum_nil; ring|]. rewrite !lsum_cons, IH. ring. Qed.
  Lemma lsum_mul_l {X} l c (f : X -> K) : lsum l (fun x => smul c (f x)) = smul c (lsum l f).
  Proof. induction l as [|x l IH]; [rewrite !lsum_nil; ring|]. rewrite !lsum_cons, IH. ring. Qed.
  Lemma lsum_mul_r {X} l c (f : X -> K) : lsum l (fun x => smul (f x) c) = smul (lsum l f) c.
  Proof. induction l as [|x l IH]; [rewrite !lsum_nil; ring|]. rewrite !lsum_cons, IH. ring. Qed.
  Lemma lsum_zero {X} l (f : X -> K) : (forall x, In x l -> f x = s0) -> lsum l f = s0.
  Proof.
    induction l as [|x l IH]; intros H; [reflexivity|]. rewrite lsum_cons, (H x), IH.
    - ring.
    - intros y Hy; apply H; right; exact Hy.
    - left; reflexivity.
  Qed.
  Lemma lsum_seq n (f : nat -> K) : lsum (seq 0 n) f = bsum n f.
  Proof.
    induction n as [|n IH]; [reflexivity|].
    rewrite seq_S, lsum_app, IH, lsum_cons, lsum_nil. simpl. ring.
  Qed.
  Lemma lsum_swap {X Y} (l1 : list X) (l2 : list Y) (f : X -> Y -> K) :
    lsum l1 (fun x => lsum l2 (f x)) = lsum l2 (fun y => lsum l1 (fun x => f x y)).
  Proof.
    induction l1 as [|x l1 IH].
    - rewrite lsum_nil. symmetry. apply lsum_zero. reflexivity.
    - rewrite lsum_cons, IH, <- lsum_add. apply lsum_ext. reflexivity.
  Qed.
  Lemma lsum_bsum {X} (l : list X) n (f : X -> nat -> K) :
    lsum l (fun x => bsum n (f x)) = bsum n (fun k => lsum l (fun x => f x k)).
  Proof.
    rewrite <- lsum_seq, <- lsum_swap. apply lsum_ext; intros x _. symmetry; apply lsum_seq.
  Qed.
  Lemma lsum_perm {X} (l1 l2 : list X) (f : X -> K) : Permutation l1 l2 -> lsum l1 f = lsum l2 f.
  Proof.
    induction 1; rewrite ?lsum_cons; try congruence.
    - ring.
  Qed.
End Lin.

(** ** Real and complex numbers *)
Section Num.
  Variable K : numfield.
  Add Ring Kr2 : (rth K).

  Lemma nofR_sum n (f : nat -> R) :
    nofR K (bsum (S := R_ops) n f) = bsum n (fun k => nofR K (f k)).
  Proof.
    induction n as [|n IH]; simpl; [apply nof_0|].
    rewrite nof_add. rewrite <- IH. reflexivity.
  Qed.
  Lemma nofR_lsum {X} (l : list X) (f : X -> R) :
    nofR K (lsum (K := R_ops) l f) = lsum (K := K) l (fun x => nofR K (f x)).
  Proof.
    induction l as [|x l IH]; [apply nof_0|]. unfold lsum in *; simpl.
    rewrite nof_add. rewrite <- IH. reflexivity.
  Qed.
  Lemma nabs_s0 : nabs K s0 = 0%R.
  Proof. rewrite <- nof_0, nabs_of. apply Rabs_R0. Qed.
  Lemma nabs_pos_lt z : z <> s0 -> (0 < nabs K z)%R.
  Proof.
    intros H. destruct (nabs_pos K z) as [Hlt|Heq]; [exact Hlt|].
    exfalso. apply H. apply (nabs_0 K). symmetry; exact Heq.
  Qed.
  Lemma neq0_dec (z : K) : {z = s0} + {z <> s0}.
  Proof.
    destruct (Req_EM_T (nabs K z) 0) as [H|H].
    - left. apply (nabs_0 K), H.
    - right. intros ->. apply H, nabs_s0.
  Qed.
  Lemma bounded_zero_dec n (f : nat -> K) :
    (forall i, i < n -> f i = s0) \/ exists i, i < n /\ f i <> s0.
  Proof.
    induction n as [|n [IH|(i & Hi & H)]].
    - left; intros; lia.
    - destruct (neq0_dec (f n)) as [E|E].
      + left. intros i Hi. destruct (Nat.eq_dec i n) as [->|]; [exact E|]. apply IH; lia.
      + right. exists n. split; [lia|exact E].
    - right. exists i. split; [lia|exact H].
  Qed.
  Lemma mat_zero_dec m n (X : mat K) :
    (forall i j, i < m -> j < n -> X i j = s0) \/ exists i j, i < m /\ j < n /\ X i j <> s0.
  Proof.
    induction m as [|m [IH|(i & j & Hi & Hj & H)]].
    - left; intros; lia.
    - destruct (bounded_zero_dec n (X m)) as [E|(j & Hj & E)].
      + left. intros i j Hi Hj. destruct (Nat.eq_dec i m) as [->|]; [apply E, Hj|]. apply IH; lia.
      + right. exists m, j. repeat split; [lia|exact Hj|exact E].
    - right. exists i, j. repeat split; [lia|exact Hj|exact H].
  Qed.
  Lemma nofR_inv (r : R) : r <> 0%R -> smul (nofR K r) (nofR K (/ r)) = s1.
  Proof. intros H. rewrite <- nof_mul, Rinv_r by exact H. apply nof_1. Qed.
  Lemma nofR_inj x y : nofR K x = nofR K y -> x = y.
  Proof. intros H. rewrite <- (nre_of K x), <- (nre_of K y), H. reflexivity. Qed.
  Lemma nconj_0 : nconj K s0 = s0.
  Proof. rewrite <- nof_0. apply nconj_of. Qed.
  Lemma nconj_bsum n (f : nat -> K) : nconj K (bsum n f) = bsum n (fun k => nconj K (f k)).
  Proof.
    induction n as [|n IH]; simpl; [apply nconj_0|]. rewrite nconj_add, IH. reflexivity.
  Qed.
  Lemma abs2_nofR z : smul z (nconj K z) = nofR K (abs2 z).
  Proof. apply nabs_sq. Qed.
  Lemma abs2_nonneg (z : K) : (0 <= abs2 z)%R.
  Proof. unfold abs2. apply Rle_0_sqr. Qed.
  Lemma abs2_zero (z : K) : abs2 z = 0%R -> z = s0.
  Proof. unfold abs2; intros H. apply (nabs_0 K). apply Rsqr_eq_0. exact H. Qed.
  Lemma abs2_s0 : abs2 (s0 : K) = 0%R.
  Proof. unfold abs2. rewrite nabs_s0. ring. Qed.
  Lemma abs2_scale c z : abs2 (smul (nofR K c) z) = (c * c * abs2 z)%R.
  Proof.
    unfold abs2. rewrite nabs_mul, nabs_of.
    assert (Rabs c * Rabs c = c * c)%R as <-.
    { rewrite <- Rabs_mult. apply Rabs_pos_eq. apply Rle_0_sqr. }
    ring.
  Qed.
  Lemma smul_s0_r (x : K) : smul x s0 = s0. Proof. ring. Qed.
  Lemma nonzero_inv_l (x y : K) : smul x y <> s0 -> x <> s0.
  Proof. intros H ->. apply H. ring. Qed.
End Num.

(** sums of nonnegative reals *)
Lemma bsumR_nonneg n (f : nat -> R) :
  (forall k, k < n -> (0 <= f k)%R) -> (0 <= bsum (S := R_ops) n f)%R.
Proof.
  induction n as [|n IH]; intros H; simpl; [lra|].
  pose proof (IH (fun k Hk => H k (Nat.lt_lt_succ_r _ _ Hk))). pose proof (H n (Nat.lt_succ_diag_r n)).
  lra.
Qed.
Lemma bsumR_pos n (f : nat -> R) k :
  (forall k, k < n -> (0 <= f k)%R) -> k < n -> (0 < f k)%R -> (0 < bsum (S := R_ops) n f)%R.
Proof.
  induction n as [|n IH]; intros H Hk Hp; simpl; [lia|].
  assert (Hn : forall k, k < n -> (0 <= f k)%R) by (intros; apply H; lia).
  pose proof (H n (Nat.lt_succ_diag_r n)).
  destruct (Nat.eq_dec k n) as [->|Hne].
  - pose proof (bsumR_nonneg n f Hn). lra.
  - assert (0 < bsum (S := R_ops) n f)%R by (apply IH; [exact Hn|lia|exact Hp]). lra.
Qed.
Lemma bsumR_zero n (f : nat -> R) :
  (forall k, k < n -> (0 <= f k)%R) -> bsum (S := R_ops) n f = 0%R ->
  forall k, k < n -> f k = 0%R.
Proof.
  intros H Hs k Hk. destruct (H k Hk) as [Hlt|Heq]; [|symmetry; exact Heq].
  pose proof (bsumR_pos n f k H Hk Hlt). lra.
Qed.
Lemma lsumR_nonneg {X} (l : list X) (f : X -> R) :
  (forall x, In x l -> (0 <= f x)%R) -> (0 <= lsum (K := R_ops) l f)%R.
Proof.
  induction l as [|x l IH]; intros H; [unfold lsum; simpl; lra|].
  rewrite (lsum_cons R_cring). simpl.
  pose proof (H x (or_introl eq_refl)).
  pose proof (IH (fun y Hy => H y (or_intror Hy))). unfold lsum in *; simpl in *. lra.
Qed.
Lemma lsumR_zero {X} (l : list X) (f : X -> R) :
  (forall x, In x l -> (0 <= f x)%R) -> lsum (K := R_ops) l f = 0%R ->
  forall x, In x l -> f x = 0%R.
Proof.
  induction l as [|y l IH]; intros H Hs x Hx; [destruct Hx|].
  rewrite (lsum_cons R_cring) in Hs. simpl in Hs.
  pose proof (H y (or_introl eq_refl)) as Hy.
  pose proof (lsumR_nonneg l f (fun z Hz => H z (or_intror Hz))) as Hl.
  destruct Hx as [->|Hx].
  - lra.
  - apply IH; [intros; apply H; right; assumption | lra | exact Hx].
Qed.
Lemma lsumR_pos {X} (l : list X) (f : X -> R) x :
  (forall x, In x l -> (0 <= f x)%R) -> In x l -> (0 < f x)%R -> (0 < lsum (K := R_ops) l f)%R.
Proof.
  intros H Hx Hp. destruct (lsumR_nonneg l f H) as [Hlt|Heq]; [exact Hlt|].
  symmetry in Heq. pose proof (lsumR_zero l f H Heq x Hx). lra.
Qed.
