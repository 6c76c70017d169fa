(** * Quad: the error of the trapezoid rule (Coquelicot's Riemann integral) *)
From Coq Require Import Reals Lra Lia.
From Coquelicot Require Import Coquelicot.
From Verif Require Import Base Scalars Embeddings Spec EmbSpec LinAlg EmbProofs.
Local Open Scope R_scope.
(** f is twice continuously differentiable on [a,b] with second derivative at most M *)
Definition smooth (a b M : R) (f : R -> R) : Prop :=
  exists f1 f2 : R -> R, forall t, a <= t <= b ->
    is_derive f t (f1 t) /\ is_derive f1 t (f2 t) /\ continuous f2 t /\ Rabs (f2 t) <= M.
Lemma smooth_sub a b M f u v : smooth a b M f -> a <= u -> v <= b -> smooth u v M f.
Proof. intros (f1 & f2 & H) Hu Hv. exists f1, f2. intros t Ht. apply H. lra. Qed.
Lemma smooth_continuous a b M f : smooth a b M f -> forall t, a <= t <= b -> continuous f t.
Proof. intros (f1 & f2 & H) t Ht. destruct (H t Ht) as [H1 _]. apply (ex_derive_continuous f t). exists (f1 t). exact H1. Qed.
Lemma smooth_integrable a b M f : a <= b -> smooth a b M f -> ex_RInt f a b.
Proof.
  intros Hab H. apply (ex_RInt_continuous (V := R_CompleteNormedModule)). rewrite Rmin_left, Rmax_right by exact Hab. apply (smooth_continuous a b M f H).
Qed.
Lemma int_poly u v : is_RInt (fun t => (t - u) * (v - t) / 2) u v ((v - u) ^ 3 / 12).
Proof.
  set (F := fun t : R => (- t ^ 3 / 3 + (u + v) * t ^ 2 / 2 - u * v * t) / 2).
  replace ((v - u) ^ 3 / 12) with (minus (F v) (F u)) by (unfold F, minus, plus, opp; cbn; field).
  apply (is_RInt_derive (V := R_CompleteNormedModule)).
  - intros t _. unfold F. auto_derive; [exact I|]. field.
  - intros t _. apply (ex_derive_continuous (V := R_NormedModule)). auto_derive. exact I.
Qed.
(** one cell *)
Lemma cell u v M f I : u <= v -> smooth u v M f -> is_RInt f u v I -> Rabs (I - (v - u) * ((f u + f v) / 2)) <= M * ((v - u) ^ 3 / 12).
Proof.
  intros Huv (f1 & f2 & H) HI.
  set (q := fun t : R => (t - u) * (t - v) / 2).
  set (q1 := fun t : R => t - (u + v) / 2).
  assert (HF : is_RInt (fun t => f t - q t * f2 t) u v ((v - u) * ((f u + f v) / 2))).
  { replace ((v - u) * ((f u + f v) / 2)) with (minus (q1 v * f v - q v * f1 v) (q1 u * f u - q u * f1 u))
      by (unfold q, q1, minus, plus, opp; cbn; field).
    apply (is_RInt_derive (V := R_CompleteNormedModule) (fun t => q1 t * f t - q t * f1 t)); rewrite Rmin_left, Rmax_right by exact Huv; intros t Ht; destruct (H t Ht) as (D1 & D2 & C2 & _).
    - unfold q, q1. auto_derive; [split; [exists (f1 t); exact D1|split; [exists (f2 t); exact D2|exact Logic.I]]|].
      + replace (Derive (fun x => f x) t) with (f1 t) by (symmetry; apply is_derive_unique; exact D1).
        replace (Derive (fun x => f1 x) t) with (f2 t) by (symmetry; apply is_derive_unique; exact D2). field.
    - apply (continuous_minus (V := R_NormedModule) f (fun t => q t * f2 t)).
      + apply (ex_derive_continuous f t). exists (f1 t). exact D1.
      + apply (continuous_mult q f2); [|exact C2]. apply (ex_derive_continuous (V := R_NormedModule)). unfold q. auto_derive. exact Logic.I. }
  pose proof (is_RInt_minus _ _ _ _ _ _ HI HF) as HQ.
  assert (HQ' : is_RInt (fun t => q t * f2 t) u v (I - (v - u) * ((f u + f v) / 2))).
  { eapply is_RInt_ext; [|exact HQ]. intros t _. unfold minus, plus, opp. cbn. ring. }
  pose proof (is_RInt_scal _ _ _ M _ (int_poly u v)) as HP.
  apply Rabs_le. split.
  - apply (is_RInt_le (fun t => opp (scal M ((t - u) * (v - t) / 2))) (fun t => q t * f2 t) u v _ _ Huv (is_RInt_opp _ _ _ _ HP) HQ').
    intros t Ht. destruct (H t ltac:(lra)) as (_ & _ & _ & B). apply Rabs_le_between in B. assert (Hp : 0 <= (t - u) * (v - t) / 2) by nra.
    unfold q. change (- (M * ((t - u) * (v - t) / 2)) <= (t - u) * (t - v) / 2 * f2 t). set (p := (t - u) * (v - t) / 2) in *. replace ((t - u) * (t - v) / 2) with (- p) by (unfold p; field). nra.
  - apply (is_RInt_le (fun t => q t * f2 t) (fun t => scal M ((t - u) * (v - t) / 2)) u v _ _ Huv HQ' HP).
    intros t Ht. destruct (H t ltac:(lra)) as (_ & _ & _ & B). apply Rabs_le_between in B. assert (Hp : 0 <= (t - u) * (v - t) / 2) by nra.
    unfold q. change ((t - u) * (t - v) / 2 * f2 t <= M * ((t - u) * (v - t) / 2)). set (p := (t - u) * (v - t) / 2) in *. replace ((t - u) * (t - v) / 2) with (- p) by (unfold p; field). nra.
Qed.

(** the trapezoid sum over the grid of torch.linspace(a, b, N) *)
Definition trap_sum (a b : R) (N : nat) (f : R -> R) : R := bsum (S := R_ops) N (fun k => trap_weight N (grid a b N) k * f (grid a b N k)).
Lemma grid_0 a b N : grid a b N 0 = a.
Proof. unfold grid. cbn. ring. Qed.
Lemma grid_last a b N : (1 < N)%nat -> grid a b N (N - 1) = b.
Proof. intros HN. unfold grid. field. apply not_0_INR. lia. Qed.
Lemma grid_step a b N k : grid a b N (S k) - grid a b N k = (b - a) / INR (N - 1).
Proof. unfold grid. rewrite S_INR. ring. Qed.
Lemma composite a b N M f I : a < b -> (1 < N)%nat -> smooth a b M f -> is_RInt f a b I ->
  Rabs (I - trap_sum a b N f) <= M * ((b - a) ^ 3 / (12 * INR (N - 1) ^ 2)).
Proof.
  intros Hab HN Hf HI. unfold trap_sum. rewrite <- (EmbProofs.trapezoid_weights N (grid a b N) (fun k => f (grid a b N k))).
  unfold trapezoid. set (h := (b - a) / INR (N - 1)).
  assert (HN1 : 0 < INR (N - 1)) by (apply lt_0_INR; lia).
  assert (Hh : 0 < h) by (apply Rdiv_lt_0_compat; lra).
  assert (G : forall j J, (j <= N - 1)%nat -> is_RInt f a (grid a b N j) J ->
    Rabs (J - bsum (S := R_ops) j (fun k => ((grid a b N (S k) - grid a b N k) * (f (grid a b N k) + f (grid a b N (S k))) / 2))) <= INR j * (M * (h ^ 3 / 12))).
  { induction j as [|j IH]; intros J Hj HJ.
    - rewrite grid_0 in HJ. pose proof (is_RInt_unique _ _ _ _ HJ) as E. rewrite RInt_point in E. rewrite <- E. cbn. unfold zero; cbn. rewrite Rminus_0_r, Rabs_R0. lra.
    - assert (H1 : a <= grid a b N j <= b) by (apply EmbProofs.grid_in; [exact Hab|exact HN|lia]).
      assert (H2 : a <= grid a b N (S j) <= b) by (apply EmbProofs.grid_in; [exact Hab|exact HN|lia]).
      assert (H3 : grid a b N (S j) = grid a b N j + h) by (pose proof (grid_step a b N j); fold h in H; lra).
      destruct (smooth_integrable a (grid a b N j) M f (proj1 H1) (smooth_sub a b M f _ _ Hf (Rle_refl _) (proj2 H1))) as (J1 & HJ1).
      assert (S2 : smooth (grid a b N j) (grid a b N (S j)) M f) by (apply (smooth_sub a b M f _ _ Hf); lra).
      destruct (smooth_integrable (grid a b N j) (grid a b N (S j)) M f ltac:(lra) S2) as (J2 & HJ2).
      assert (EJ : J = J1 + J2).
      { rewrite <- (is_RInt_unique _ _ _ _ HJ). apply is_RInt_unique. exact (is_RInt_Chasles _ _ _ _ _ _ HJ1 HJ2). }
      pose proof (cell (grid a b N j) (grid a b N (S j)) M f J2 ltac:(lra) S2 HJ2) as C. specialize (IH J1 ltac:(lia) HJ1).
      cbn [bsum sadd R_ops]. rewrite S_INR, EJ. replace (grid a b N (S j) - grid a b N j) with h in C |- * by lra.
      match goal with |- Rabs (J1 + J2 - (?s + ?c)) <= _ => replace (J1 + J2 - (s + c)) with ((J1 - s) + (J2 - h * ((f (grid a b N j) + f (grid a b N (S j))) / 2))) by (cbv beta; field) end.
      eapply Rle_trans; [apply Rabs_triang|]. lra. }
  specialize (G (N - 1)%nat I (le_n _)). rewrite grid_last in G by exact HN. specialize (G HI).
  eapply Rle_trans; [exact G|]. right. unfold h. field. lra.
Qed.
