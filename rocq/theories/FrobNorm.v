(** * FrobNorm: Euclidean and Frobenius norms over finite index lists; products of matrices that are close *)
From Coq Require Import Reals Lra.
From Verif Require Import Base Scalars Tensor Spec LinAlg UtilsSpec.

(** *** sums of squares over a list of indices *)
Definition sq2 {A} (X : list A) (f : A -> R) : R := rsum (map (fun x => (f x * f x)%R) X).
Definition nrm {A} (X : list A) (f : A -> R) : R := sqrt (sq2 X f).
Section Norm.
  Context {A : Type}.
  Implicit Types (X : list A) (f g : A -> R).
  Lemma sq2_nonneg X f : (0 <= sq2 X f)%R.
  Proof. unfold sq2. induction X as [|x X IH]; cbn; [lra|]. pose proof (Rle_0_sqr (f x)) as H. unfold Rsqr in H. unfold rsum in IH. lra. Qed.
  Lemma nrm_nonneg X f : (0 <= nrm X f)%R. Proof. apply sqrt_pos. Qed.
  Lemma nrm_sq X f : (nrm X f * nrm X f = sq2 X f)%R. Proof. apply sqrt_sqrt, sq2_nonneg. Qed.
  Lemma sq2_ext X f g : (forall x, In x X -> f x = g x) -> sq2 X f = sq2 X g.
  Proof. intros H. unfold sq2. f_equal. apply map_ext_in. intros x Hx. rewrite (H x Hx). reflexivity. Qed.
  Lemma rsum_app l l' : rsum (l ++ l') = (rsum l + rsum l')%R.
  Proof. unfold rsum. induction l as [|x l IH]; cbn; [lra|]. rewrite IH. lra. Qed.
  (** Cauchy-Schwarz *)
  Lemma dot_nrm X f g : (Rabs (rsum (map (fun x => (f x * g x)%R) X)) <= nrm X f * nrm X g)%R.
  Proof.
    induction X as [|x X IH].
    - cbn. rewrite Rabs_R0. apply Rmult_le_pos; apply sqrt_pos.
    - cbn [map]. unfold rsum in *. cbn [fold_right]. set (s := fold_right Rplus 0%R _) in *.
      pose proof (nrm_sq X f) as Ea. pose proof (nrm_sq X g) as Eb. pose proof (nrm_nonneg X f) as Pa. pose proof (nrm_nonneg X g) as Pb.
      set (a := nrm X f) in *. set (b := nrm X g) in *.
      assert (Ef : sq2 (x :: X) f = (f x * f x + a * a)%R) by (rewrite Ea; reflexivity).
      assert (Eg : sq2 (x :: X) g = (g x * g x + b * b)%R) by (rewrite Eb; reflexivity).
      unfold nrm. rewrite <- sqrt_mult by (apply sq2_nonneg). rewrite Ef, Eg. rewrite <- (sqrt_Rsqr (Rabs _)) by apply Rabs_pos. apply sqrt_le_1_alt.
      rewrite <- Rsqr_abs. unfold Rsqr.
      assert (Hs : (s * s <= (a * b) * (a * b))%R).
      { replace (s * s)%R with (Rabs s * Rabs s)%R by (rewrite <- Rabs_mult; apply Rabs_pos_eq; pose proof (Rle_0_sqr s) as Q; exact Q).
        apply Rmult_le_compat; try apply Rabs_pos; exact IH. }
      assert (Hc : (f x * g x * s <= Rabs (f x) * Rabs (g x) * (a * b))%R).
      { apply (Rle_trans _ (Rabs (f x * g x * s))); [apply Rle_abs|]. rewrite !Rabs_mult. apply Rmult_le_compat_l; [apply Rmult_le_pos; apply Rabs_pos|exact IH]. }
      pose proof (Rle_0_sqr (Rabs (f x) * b - Rabs (g x) * a)) as Q. unfold Rsqr in Q.
      assert (F2 : (Rabs (f x) * Rabs (f x) = f x * f x)%R) by (rewrite <- Rabs_mult; apply Rabs_pos_eq; apply (Rle_0_sqr (f x))).
      assert (G2 : (Rabs (g x) * Rabs (g x) = g x * g x)%R) by (rewrite <- Rabs_mult; apply Rabs_pos_eq; apply (Rle_0_sqr (g x))).
      set (p := Rabs (f x)) in *. set (q := Rabs (g x)) in *. set (u := f x) in *. set (v := g x) in *.
      assert (Q2 : (2 * (p * q * (a * b)) <= u * u * (b * b) + v * v * (a * a))%R) by (rewrite <- F2, <- G2; lra). lra.
  Qed.
  (** triangle inequality *)
  Lemma nrm_plus X f g : (nrm X (fun x => (f x + g x)%R) <= nrm X f + nrm X g)%R.
  Proof.
    assert (E : sq2 X (fun x => (f x + g x)%R) = (sq2 X f + 2 * rsum (map (fun x => (f x * g x)%R) X) + sq2 X g)%R).
    { unfold sq2. induction X as [|x X IH]; cbn; [lra|]. unfold rsum in IH. rewrite IH. lra. }
    pose proof (dot_nrm X f g) as C. pose proof (Rle_abs (rsum (map (fun x => (f x * g x)%R) X))) as Cb.
    pose proof (nrm_sq X f) as Ea. pose proof (nrm_sq X g) as Eb. pose proof (nrm_nonneg X f) as Pa. pose proof (nrm_nonneg X g) as Pb.
    unfold nrm at 1. rewrite <- (sqrt_Rsqr (nrm X f + nrm X g)) by lra. apply sqrt_le_1_alt. unfold Rsqr. rewrite E. lra.
  Qed.
  Lemma nrm_le X f g : (forall x, In x X -> (Rabs (f x) <= Rabs (g x))%R) -> (nrm X f <= nrm X g)%R.
  Proof.
    intros H. apply sqrt_le_1_alt. unfold sq2. induction X as [|x X IH]; cbn; [lra|]. apply Rplus_le_compat; [|apply IH; intros; apply H; right; assumption].
    specialize (H x (or_introl eq_refl)). pose proof (Rsqr_le_abs_1 _ _ H) as Q. exact Q.
  Qed.
  Lemma sq2_scale X f c : sq2 X (fun x => (c * f x)%R) = (c * c * sq2 X f)%R.
  Proof. unfold sq2. induction X as [|x X IH]; cbn; [lra|]. unfold rsum in IH. rewrite IH. lra. Qed.
End Norm.
Lemma nrm_le_sq {A B} (X : list A) (f : A -> R) (Y : list B) (g : B -> R) c : (0 <= c)%R -> (sq2 X f <= sq2 Y g * (c * c))%R -> (nrm X f <= nrm Y g * c)%R.
Proof.
  intros Hc H. unfold nrm. rewrite <- (sqrt_Rsqr c) by exact Hc. rewrite <- sqrt_mult by (try apply sq2_nonneg; apply Rle_0_sqr). apply sqrt_le_1_alt. exact H.
Qed.

(** *** finite sums as list sums *)
Lemma rsum_seq n (f : nat -> R) : rsum (map f (seq 0 n)) = bsum (S := R_ops) n f.
Proof.
  induction n as [|n IH]; [reflexivity|]. rewrite seq_S, map_app, rsum_app, IH. cbn [bsum map rsum fold_right]. change (@eq R (bsum (S := R_ops) n f + (f n + 0)) (bsum (S := R_ops) n f + f n))%R. lra.
Qed.
Lemma rsum_flat {A B} (f : B -> R) (h : A -> list B) l : rsum (map f (flat_map h l)) = rsum (map (fun a => rsum (map f (h a))) l).
Proof. induction l as [|x l IH]; [reflexivity|]. cbn [flat_map]. rewrite map_app, rsum_app, IH. reflexivity. Qed.
Lemma rsum_idx d sh (f : list nat -> R) : rsum (map f (all_idx (d :: sh))) = bsum (S := R_ops) d (fun a => rsum (map (fun i => f (a :: i)) (all_idx sh))).
Proof. cbn [all_idx]. rewrite rsum_flat, rsum_seq. apply (bsum_ext (S := R_ops)). intros a Ha. rewrite map_map. reflexivity. Qed.
Lemma bsum_nonneg n (f : nat -> R) : (forall k, k < n -> (0 <= f k)%R) -> (0 <= bsum (S := R_ops) n f)%R.
Proof. induction n as [|n IH]; intros H; cbn [bsum]; [apply Rle_refl|]. apply Rplus_le_le_0_compat; [apply IH; intros; apply H; lia|apply H; lia]. Qed.
Lemma bsum_mono n (f g : nat -> R) : (forall k, k < n -> (f k <= g k)%R) -> (bsum (S := R_ops) n f <= bsum (S := R_ops) n g)%R.
Proof. induction n as [|n IH]; intros H; cbn [bsum]; [apply Rle_refl|]. apply Rplus_le_compat; [apply IH; intros; apply H; lia|apply H; lia]. Qed.
Lemma bsum_scale_r n (f : nat -> R) c : (bsum (S := R_ops) n f * c)%R = bsum (S := R_ops) n (fun k => f k * c)%R.
Proof. symmetry. exact (bsum_mul_r R_cring n c f). Qed.
Lemma bsum_term n (f : nat -> R) k : (forall j, j < n -> (0 <= f j)%R) -> k < n -> (f k <= bsum (S := R_ops) n f)%R.
Proof.
  induction n as [|n IH]; intros H Hk; [lia|]. cbn [bsum]. change (f k <= bsum (S := R_ops) n f + f n)%R.
  assert (P : (0 <= f n)%R) by (apply H; lia). assert (Q : (0 <= bsum (S := R_ops) n f)%R) by (apply bsum_nonneg; intros; apply H; lia).
  destruct (Nat.eq_dec k n) as [->|]; [lra|]. specialize (IH ltac:(intros; apply H; lia) ltac:(lia)). lra.
Qed.
(** Cauchy-Schwarz for finite sums, squared *)
Lemma dot_sq n (f g : nat -> R) : (bsum (S := R_ops) n (fun k => f k * g k) * bsum (S := R_ops) n (fun k => f k * g k) <= bsum (S := R_ops) n (fun k => f k * f k) * bsum (S := R_ops) n (fun k => g k * g k))%R.
Proof.
  pose proof (dot_nrm (seq 0 n) f g) as C. rewrite rsum_seq in C. pose proof (nrm_sq (seq 0 n) f) as Ea. pose proof (nrm_sq (seq 0 n) g) as Eb. unfold sq2 in Ea, Eb. rewrite rsum_seq in Ea, Eb.
  rewrite <- Ea, <- Eb. set (s := bsum (S := R_ops) n (fun k => f k * g k)%R) in *. set (a := nrm _ f) in *. set (b := nrm _ g) in *.
  replace (s * s)%R with (Rabs s * Rabs s)%R by (rewrite <- Rabs_mult; apply Rabs_pos_eq; apply (Rle_0_sqr s)).
  replace (a * a * (b * b))%R with (a * b * (a * b))%R by ring. apply Rmult_le_compat; try apply Rabs_pos; exact C.
Qed.

(** *** D x D matrices *)
Section Mat.
  Variable D : nat.
  Notation K := R_cring.
  Notation matR := (nat -> nat -> R).
  Definition cells : list (nat * nat) := list_prod (seq 0 D) (seq 0 D).
  Definition msq (M : matR) : R := bsum (S := R_ops) D (fun i => bsum (S := R_ops) D (fun j => (M i j * M i j)%R)).
  Definition mf (M : matR) : R := sqrt (msq M).
  Lemma msq_cells M : msq M = sq2 cells (fun c => M (fst c) (snd c)).
  Proof.
    unfold msq, sq2, cells. rewrite <- rsum_seq. enough (G : forall X, rsum (map (fun i => bsum (S := R_ops) D (fun j => (M i j * M i j)%R)) X) = rsum (map (fun x : nat * nat => (M (fst x) (snd x) * M (fst x) (snd x))%R) (list_prod X (seq 0 D)))) by apply G.
    induction X as [|x X IH]; [reflexivity|]. cbn [list_prod]. rewrite map_app, rsum_app, <- IH, map_map. cbn [fst snd]. rewrite rsum_seq. reflexivity.
  Qed.
  Lemma mf_cells M : mf M = nrm cells (fun c => M (fst c) (snd c)). Proof. unfold mf, nrm. rewrite msq_cells. reflexivity. Qed.
  Lemma msq_nonneg M : (0 <= msq M)%R. Proof. rewrite msq_cells. apply sq2_nonneg. Qed.
  Lemma mf_nonneg M : (0 <= mf M)%R. Proof. apply sqrt_pos. Qed.
  Lemma mf_sq M : (mf M * mf M = msq M)%R. Proof. apply sqrt_sqrt, msq_nonneg. Qed.
  Lemma mf_ext M N : (forall i j, i < D -> j < D -> M i j = N i j) -> mf M = mf N.
  Proof. intros H. unfold mf. f_equal. unfold msq. apply (bsum_ext (S := R_ops)). intros i Hi. apply (bsum_ext (S := R_ops)). intros j Hj. rewrite (H i j Hi Hj). reflexivity. Qed.
  Lemma mf_plus M N : (mf (fun i j => M i j + N i j) <= mf M + mf N)%R.
  Proof. rewrite !mf_cells. apply (nrm_plus cells (fun c => M (fst c) (snd c)) (fun c => N (fst c) (snd c))). Qed.
  Lemma mf_le M c : (0 <= c)%R -> (msq M <= c * c)%R -> (mf M <= c)%R.
  Proof. intros Hc H. unfold mf. rewrite <- (sqrt_Rsqr c) by exact Hc. apply sqrt_le_1_alt. exact H. Qed.
  Lemma mf_mul M N : (mf (mmul (K := K) D M N) <= mf M * mf N)%R.
  Proof.
    apply mf_le; [apply Rmult_le_pos; apply mf_nonneg|]. replace (mf M * mf N * (mf M * mf N))%R with (mf M * mf M * (mf N * mf N))%R by ring. rewrite !mf_sq.
    set (R_ := fun i => bsum (S := R_ops) D (fun k => (M i k * M i k)%R)). set (C_ := fun j => bsum (S := R_ops) D (fun k => (N k j * N k j)%R)).
    assert (EN : msq N = bsum (S := R_ops) D C_) by exact (bsum_swap R_cring D D (fun i j => (N i j * N i j)%R)).
    rewrite EN. unfold msq at 2. fold R_. change (msq (mmul (K := K) D M N) <= bsum (S := R_ops) D R_ * bsum (S := R_ops) D C_)%R. rewrite bsum_scale_r. unfold msq. apply bsum_mono. intros i Hi.
    rewrite Rmult_comm, bsum_scale_r. apply bsum_mono. intros j Hj. rewrite (Rmult_comm (C_ j)). unfold mmul. exact (dot_sq D (M i) (fun k => N k j)).
  Qed.
  Lemma entry_mf M i j : i < D -> j < D -> (Rabs (M i j) <= mf M)%R.
  Proof.
    intros Hi Hj. rewrite <- (sqrt_Rsqr (Rabs (M i j))) by apply Rabs_pos. apply sqrt_le_1_alt. rewrite <- Rsqr_abs. unfold msq.
    apply (Rle_trans _ (bsum (S := R_ops) D (fun j' => (M i j' * M i j')%R))).
    - exact (bsum_term D (fun j' => (M i j' * M i j')%R) j (fun _ _ => Rle_0_sqr _) Hj).
    - apply (bsum_term D (fun i' => bsum (S := R_ops) D (fun j' => (M i' j' * M i' j')%R))); [|exact Hi]. intros. apply bsum_nonneg. intros. apply Rle_0_sqr.
  Qed.
  Lemma trace_mf M : (Rabs (mtrace (K := K) D M) <= sqrt (INR D) * mf M)%R.
  Proof.
    pose proof (dot_sq D (fun _ => 1%R) (fun i => M i i)) as C. cbn beta in C.
    assert (E1 : bsum (S := R_ops) D (fun i => (1 * M i i)%R) = mtrace (K := K) D M) by (apply (bsum_ext (S := R_ops)); intros; apply Rmult_1_l).
    assert (E2 : bsum (S := R_ops) D (fun _ => (1 * 1)%R) = INR D).
    { clear. induction D as [|n IH]; [reflexivity|]. rewrite S_INR. cbn [bsum]. rewrite IH. change (@eq R (INR n + 1 * 1) (INR n + 1))%R. ring. }
    rewrite E1, E2 in C.
    assert (E3 : (bsum (S := R_ops) D (fun i => (M i i * M i i)%R) <= msq M)%R).
    { unfold msq. apply bsum_mono. intros i Hi. exact (bsum_term D (fun j => (M i j * M i j)%R) i (fun _ _ => Rle_0_sqr _) Hi). }
    rewrite <- (sqrt_Rsqr (Rabs _)) by apply Rabs_pos. unfold mf. rewrite <- sqrt_mult by (try apply msq_nonneg; apply pos_INR). apply sqrt_le_1_alt. rewrite <- Rsqr_abs.
    unfold Rsqr. eapply Rle_trans; [exact C|]. apply Rmult_le_compat_l; [apply pos_INR|exact E3].
  Qed.

  (** products whose factors are bounded by [a] and differ by at most [e], for a list of pairs (a, e) *)
  Fixpoint prods (l : list (R * R)) : R := match l with [] => 1%R | (a, _) :: r => (a * prods r)%R end.
  Fixpoint spread (l : list (R * R)) : R := match l with [] => 0%R | (a, e) :: r => (e * prods r + a * spread r)%R end.
  Inductive close : list (nat * matR) -> list (nat * matR) -> list (R * R) -> Prop :=
  | close_nil : close [] [] []
  | close_cons M N a e l l' b : (mf M <= a)%R -> (mf N <= a)%R -> (mf (fun i j => M i j - N i j) <= e)%R -> close l l' b ->
      close ((D, M) :: l) ((D, N) :: l') ((a, e) :: b).
  Lemma close_app l1 l1' b1 l2 l2' b2 : close l1 l1' b1 -> close l2 l2' b2 -> close (l1 ++ l2) (l1' ++ l2') (b1 ++ b2).
  Proof. induction 1; intros H'; [exact H'|]. cbn [app]. constructor; auto. Qed.
  Lemma prods_nonneg l l' b : close l l' b -> (0 <= prods b)%R.
  Proof. induction 1; cbn [prods]; [lra|]. apply Rmult_le_pos; [|assumption]. eapply Rle_trans; [apply (mf_nonneg M)|assumption]. Qed.
  Lemma chain_one M : mf (chain (K := K) [(D, M)]) = mf M.
  Proof. apply mf_ext. intros i j Hi Hj. exact (chain_single R_cring D M i j Hj). Qed.
  Lemma chain_prods l l' b : close l l' b -> l <> [] -> (mf (chain (K := K) l') <= prods b)%R.
  Proof.
    induction 1 as [|M N a e l l' b H1 H2 H3 H IH]; intros Hne; [contradiction|]. pose proof (mf_nonneg N). cbn [prods]. destruct H.
    - rewrite chain_one. cbn [prods]. lra.
    - specialize (IH ltac:(discriminate)). cbn [chain]. eapply Rle_trans; [apply mf_mul|]. apply Rmult_le_compat; [apply mf_nonneg|apply mf_nonneg|exact H2|exact IH].
  Qed.
  Theorem chain_spread l l' b : close l l' b -> l <> [] -> (mf (fun i j => chain (K := K) l i j - chain (K := K) l' i j) <= spread b)%R.
  Proof.
    induction 1 as [|M N a e l l' b H1 H2 H3 H IH]; intros Hne; [contradiction|]. pose proof (mf_nonneg M) as PM. pose proof (mf_nonneg (fun i j => (M i j - N i j)%R)) as PD.
    destruct H as [|M2 N2 a2 e2 l l' b G1 G2 G3 G].
    - cbn [spread prods]. rewrite (mf_ext _ (fun i j => (M i j - N i j)%R)); [lra|]. intros i j Hi Hj. pose proof (chain_single R_cring D M i j Hj) as E1. pose proof (chain_single R_cring D N i j Hj) as E2. exact (f_equal2 Rminus E1 E2).
    - assert (Hc : close ((D, M2) :: l) ((D, N2) :: l') ((a2, e2) :: b)) by (constructor; assumption). clear G1 G2 G3 G.
      set (L := (D, M2) :: l) in *. set (L' := (D, N2) :: l') in *. set (b2 := (a2, e2) :: b) in *.
      specialize (IH ltac:(discriminate)). pose proof (chain_prods _ _ _ Hc ltac:(discriminate)) as HP.
      rewrite (mf_ext _ (fun i j => mmul (K := K) D (fun i j => M i j - N i j) (chain (K := K) L') i j + mmul (K := K) D M (fun i j => chain (K := K) L i j - chain (K := K) L' i j) i j)%R).
      + eapply Rle_trans; [apply mf_plus|]. cbn [spread]. apply Rplus_le_compat; (eapply Rle_trans; [apply mf_mul|]); (apply Rmult_le_compat; [apply mf_nonneg|apply mf_nonneg|assumption|assumption]).
      + intros i j Hi Hj. cbn beta. unfold L at 1, L' at 1. cbn [chain]. fold L L'. unfold mmul.
        assert (X : forall n (f g h k : nat -> R), (forall q, (f q - g q = h q + k q)%R) -> (bsum (S := R_ops) n f - bsum (S := R_ops) n g = bsum (S := R_ops) n h + bsum (S := R_ops) n k)%R).
        { clear. intros n f g h k Hq. induction n as [|n IHn]; cbn [bsum]; [change (0 - 0 = 0 + 0)%R; lra|].
          change ((bsum (S := R_ops) n f + f n) - (bsum (S := R_ops) n g + g n) = (bsum (S := R_ops) n h + h n) + (bsum (S := R_ops) n k + k n))%R. specialize (Hq n). lra. }
        apply X. intros q. change (M i q * chain (K := K) L q j - N i q * chain (K := K) L' q j = (M i q - N i q) * chain (K := K) L' q j + M i q * (chain (K := K) L q j - chain (K := K) L' q j))%R. ring.
  Qed.
End Mat.
