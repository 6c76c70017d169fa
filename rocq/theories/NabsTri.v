(** * NabsTri: the triangle inequality for the absolute value of a [numfield]
    (a consequence of the multiplicativity laws; supports P_Stable). *)
From Coq Require Import Ring_theory Ring Reals Lra.
From Verif Require Import Base Scalars LinAlg.

Section Tri.
  Variable K : numfield.
  Add Ring KrTri : (rth K).
  Notation ofR := (nofR K).
  Notation sub x y := (sadd x (smul (ofR (-1)) y)).

  Lemma ofR_inj x y : ofR x = ofR y -> x = y.
  Proof. intros H. rewrite <- (nre_of K x), <- (nre_of K y), H. reflexivity. Qed.
  Lemma ofR_m1 : sadd (ofR (-1)) s1 = s0 :> K.
  Proof. rewrite <- (nof_1 K), <- nof_add, <- (nof_0 K). f_equal. ring. Qed.
  Lemma sub_zero (x y : K) : sub x y = s0 -> x = y.
  Proof.
    intros H. transitivity (sadd (sub x y) y); [|rewrite H; ring].
    transitivity (sadd x (smul (sadd (ofR (-1)) s1) y)); [rewrite ofR_m1|]; ring.
  Qed.
  Lemma nabs_conj (z : K) : nabs K (nconj K z) = nabs K z.
  Proof.
    pose proof (nabs_sq K z) as H1. pose proof (nabs_sq K (nconj K z)) as H2. rewrite nconj_conj in H2.
    assert (E : (nabs K z * nabs K z = nabs K (nconj K z) * nabs K (nconj K z))%R).
    { apply ofR_inj. rewrite <- H1, <- H2. ring. }
    pose proof (nabs_pos K z). pose proof (nabs_pos K (nconj K z)).
    apply Rsqr_inj; [assumption|assumption|]. unfold Rsqr. symmetry. exact E.
  Qed.
  (** a self-conjugate number is real *)
  Lemma self_conj (w : K) : nconj K w = w -> exists t, w = ofR t /\ (t * t = nabs K w * nabs K w)%R.
  Proof.
    intros Hw. pose proof (nabs_sq K w) as H. rewrite Hw in H. set (a := nabs K w) in *.
    assert (Hz : smul (sub w (ofR a)) (sadd w (ofR a)) = s0).
    { rewrite nof_mul in H.
      transitivity (sadd (smul w w) (sadd (smul (smul w (ofR a)) (sadd (ofR (-1)) s1)) (smul (ofR (-1)) (smul (ofR a) (ofR a))))); [ring|].
      rewrite ofR_m1, H.
      transitivity (smul (sadd (ofR (-1)) s1) (smul (ofR a) (ofR a))); [ring|]. rewrite ofR_m1. ring. }
    assert (Hn : (nabs K (sub w (ofR a)) * nabs K (sadd w (ofR a)) = 0)%R) by (rewrite <- nabs_mul, Hz; apply nabs_s0).
    apply Rmult_integral in Hn as [Hn|Hn]; apply nabs_0 in Hn.
    - exists a. split; [apply sub_zero, Hn|reflexivity].
    - exists (-1 * a)%R. split; [|ring]. rewrite nof_mul.
      transitivity (sadd (sadd w (ofR a)) (smul (ofR (-1)) (ofR a))).
      + transitivity (sadd w (smul (sadd (ofR (-1)) s1) (ofR a))); [rewrite ofR_m1|]; ring.
      + rewrite Hn. ring.
  Qed.
  Lemma real_part_le (z : K) : exists t, sadd z (nconj K z) = ofR t /\ (t <= 2 * nabs K z)%R.
  Proof.
    destruct (self_conj (sadd z (nconj K z))) as (t & Ht & _).
    { rewrite nconj_add, nconj_conj. ring. }
    exists t. split; [exact Ht|].
    set (u := sub z (nconj K z)).
    assert (Hu : nconj K u = smul (ofR (-1)) u).
    { unfold u. rewrite nconj_add, nconj_mul, nconj_conj, nconj_of.
      transitivity (sadd (smul (ofR (-1)) z) (smul (ofR (-1 * -1)) (nconj K z))).
      - replace (-1 * -1)%R with 1%R by ring. rewrite nof_1. ring.
      - rewrite nof_mul. ring. }
    pose proof (nabs_sq K u) as Hu2. rewrite Hu in Hu2.
    pose proof (nabs_sq K z) as Hz.
    assert (E : (t * t + nabs K u * nabs K u = 4 * (nabs K z * nabs K z))%R).
    { apply ofR_inj. rewrite nof_add, (nof_mul K t t), <- Ht, <- Hu2, nof_mul, <- Hz.
      replace 4%R with (1 + 1 + 1 + 1)%R by ring. rewrite !nof_add, !nof_1. unfold u.
      set (c := nconj K z).
      assert (Em : smul (ofR (-1)) (ofR (-1)) = s1 :> K) by (rewrite <- nof_mul, <- (nof_1 K); f_equal; ring).
      transitivity (sadd (smul (sadd z c) (sadd z c))
        (sadd (smul (ofR (-1)) (sadd (smul z z) (smul (smul (ofR (-1)) (ofR (-1))) (smul c c))))
              (smul (sadd s1 s1) (smul (smul (ofR (-1)) (ofR (-1))) (smul z c))))); [ring|].
      rewrite Em.
      transitivity (sadd (smul (sadd (ofR (-1)) s1) (sadd (smul z z) (smul c c)))
        (smul (sadd (sadd (sadd s1 s1) s1) s1) (smul z c))); [ring|]. rewrite ofR_m1. ring. }
    pose proof (nabs_pos K z). pose proof (nabs_pos K u).
    destruct (Rle_or_lt t (2 * nabs K z)) as [|Hlt]; [assumption|]. nra.
  Qed.
  Theorem nabs_add (x y : K) : (nabs K (sadd x y) <= nabs K x + nabs K y)%R.
  Proof.
    destruct (real_part_le (smul x (nconj K y))) as (t & Ht & Hle).
    rewrite nabs_mul, nabs_conj, nconj_mul, nconj_conj in *.
    pose proof (nabs_sq K (sadd x y)) as H. pose proof (nabs_sq K x) as Hx. pose proof (nabs_sq K y) as Hy.
    assert (E : (nabs K (sadd x y) * nabs K (sadd x y) = nabs K x * nabs K x + nabs K y * nabs K y + t)%R).
    { apply ofR_inj. rewrite <- H, !nof_add, <- Hx, <- Hy, <- Ht, nconj_add. ring. }
    pose proof (nabs_pos K x). pose proof (nabs_pos K y). pose proof (nabs_pos K (sadd x y)). nra.
  Qed.
  Theorem nabs_bsum n (f : nat -> K) : (nabs K (bsum n f) <= bsum (S := R_ops) n (fun i => nabs K (f i)))%R.
  Proof.
    induction n as [|n IH]; [cbn; rewrite nabs_s0; lra|].
    change (nabs K (sadd (bsum n f) (f n)) <= bsum (S := R_ops) n (fun i => nabs K (f i)) + nabs K (f n))%R.
    pose proof (nabs_add (bsum n f) (f n)). lra.
  Qed.
End Tri.
