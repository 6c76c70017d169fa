(** * P_Grad: C106, the derivatives of the log probabilities and of the loss with respect to the parameters. *)
From Coq Require Import Ring_theory Ring Reals Lra Permutation.
From Coquelicot Require Import Coquelicot.
From Verif Require Import Base Scalars Tensor Utils2 MpsBase Embeddings ProbMps Spec MatSpec ModelSpec LinAlg LogNorm ProbProofs EmbProofs P_Prob P_Sym2.
Open Scope nat_scope.

(** ** Specification *)
(** the parameters of m moved by s in the direction d *)
Definition moved (t u : tensor R) (s : R) : tensor R := mkT (shp t) (fun i => (get t i + s * get u i)%R).
Definition move (m d : pmps R_num) (s : R) : pmps R_num :=
  mkP R_num (moved (pm_core R_num m) (pm_core R_num d) s) (moved (pm_edge R_num m) (pm_edge R_num d) s)
    (match pm_bias R_num m with None => None | Some b => Some (moved b (match pm_bias R_num d with Some c => c | None => tconst (shp b) 0%R end) s) end)
    (pm_emb R_num m).
(** the product rule: the sum of all amplitudes in which one factor is replaced by its direction *)
Definition product_rule {X} (D : nat) (v w dv dw : nat -> R) (site dsite : nat -> X -> nat -> nat -> R) (xs : list X) : R :=
  (amplitude (K := R_num) D dv w site xs + amplitude (K := R_num) D v dw site xs
   + bsum (S := R_ops) (List.length xs) (fun t => amplitude (K := R_num) D v w (fun t' x => if t' =? t then dsite t' x else site t' x) xs))%R.
(** the directional derivative of the amplitude of row b of an input, and of that of a word *)
Definition word_slope (uniform : bool) (m d : pmps R_num) (D : nat) (w : list nat) : R :=
  product_rule D (edge_at (K := R_num) (pm_edge R_num m) 0) (edge_at (K := R_num) (pm_edge R_num m) 1) (edge_at (K := R_num) (pm_edge R_num d) 0) (edge_at (K := R_num) (pm_edge R_num d) 1)
    (letter_site (K := R_num) (pm_core R_num m) uniform (pm_bias R_num m)) (letter_site (K := R_num) (pm_core R_num d) uniform (pm_bias R_num d)) w.
Definition row_slope (uniform : bool) (m d : pmps R_num) (n f D : nat) (x : tin R_num) (b : nat) : R :=
  match x with
  | TLong ix => word_slope uniform m d D (row_letters ix n b)
  | TFloat v => product_rule D (edge_at (K := R_num) (pm_edge R_num m) 0) (edge_at (K := R_num) (pm_edge R_num m) 1) (edge_at (K := R_num) (pm_edge R_num d) 0) (edge_at (K := R_num) (pm_edge R_num d) 1)
      (vec_site (K := R_num) f (pm_core R_num m) uniform (pm_bias R_num m)) (vec_site (K := R_num) f (pm_core R_num d) uniform (pm_bias R_num d)) (row_vectors (K := R_num) v n b)
  end.
(** the amplitude of a word, and the directional derivative of the normaliser Z = sum_w psi(w)^2 *)
Definition word_amp (uniform : bool) (m : pmps R_num) (D : nat) (w : list nat) : R :=
  amplitude (K := R_num) D (edge_at (K := R_num) (pm_edge R_num m) 0) (edge_at (K := R_num) (pm_edge R_num m) 1) (letter_site (K := R_num) (pm_core R_num m) uniform (pm_bias R_num m)) w.
Definition Z_slope (uniform : bool) (m d : pmps R_num) (n f D : nat) : R :=
  lsum (K := R_ops) (words f n) (fun w => 2 * word_amp uniform m D w * word_slope uniform m d D w)%R.

(** ** Calculus *)
Lemma bsum_head (n : nat) (f : nat -> R) : bsum (S := R_ops) (S n) f = (f 0%nat + bsum (S := R_ops) n (fun k => f (S k)))%R.
Proof.
  induction n as [|n IH]; [change (0 + f 0%nat = f 0%nat + 0)%R; ring|]. cbn [bsum] in IH |- *.
  change (bsum (S := R_ops) n f + f n + f (S n) = f 0%nat + (bsum (S := R_ops) n (fun k => f (S k)) + f (S n)))%R.
  change (bsum (S := R_ops) n f + f n = f 0%nat + bsum (S := R_ops) n (fun k => f (S k)))%R in IH. rewrite IH. ring.
Qed.
Notation der := (is_derive (K := R_AbsRing) (V := R_NormedModule)).
Lemma der_eq (f g : R -> R) (x a b : R) : der f x a -> (forall s, f s = g s) -> a = b -> der g x b.
Proof. intros H E <-. apply (is_derive_ext f); [exact E|exact H]. Qed.
Lemma der_add (f g : R -> R) (x a b : R) : der f x a -> der g x b -> der (fun s => (f s + g s)%R) x (a + b)%R.
Proof. intros Hf Hg. exact (is_derive_plus f g x a b Hf Hg). Qed.
Lemma der_mul (f g : R -> R) (x a b : R) : der f x a -> der g x b -> der (fun s => (f s * g s)%R) x (a * g x + f x * b)%R.
Proof. intros Hf Hg. exact (is_derive_mult f g x a b Hf Hg Rmult_comm). Qed.
Lemma der_const (c x : R) : der (fun _ => c) x 0%R.
Proof. exact (is_derive_const c x). Qed.
Lemma der_line (c e x : R) : der (fun s => (c + s * e)%R) x e.
Proof. auto_derive; [exact Logic.I|ring]. Qed.
Lemma der_bsum n (f : R -> nat -> R) (x : R) (l : nat -> R) : (forall k, k < n -> der (fun s => f s k) x (l k)) ->
  der (fun s => bsum (S := R_ops) n (f s)) x (bsum (S := R_ops) n l).
Proof.
  induction n as [|n IH]; intros H; cbn [bsum]; [apply der_const|]. apply der_add; [apply IH; intros; apply H; lia|apply H; lia].
Qed.
Lemma der_lsum {X} (L : list X) (f : R -> X -> R) (x : R) (l : X -> R) : (forall k, In k L -> der (fun s => f s k) x (l k)) ->
  der (fun s => lsum (K := R_ops) L (f s)) x (lsum (K := R_ops) L l).
Proof.
  induction L as [|k L IH]; intros H; [exact (der_const 0%R x)|].
  change (der (fun s => f s k + lsum (K := R_ops) L (f s))%R x (l k + lsum (K := R_ops) L l)%R).
  apply der_add; [apply H; left; reflexivity|apply IH; intros; apply H; right; assumption].
Qed.
Section Chain.
  Context {X : Type}.
  Variables (D : nat) (site dsite : nat -> X -> nat -> nat -> R).
  Notation lined s := (fun t x i j => (site t x i j + s * dsite t x i j)%R).
  Notation repl u := (fun t' x => if t' =? u then dsite t' x else site t' x).
  Notation ch st t xs := (chain (K := R_num) (sites (K := R_num) D st t xs)).
  Lemma chain_same st1 st2 xs : forall t, (forall t' x, t <= t' -> st1 t' x = st2 t' x) -> sites (K := R_num) (X := X) D st1 t xs = sites (K := R_num) D st2 t xs.
  Proof.
    induction xs as [|x xs IH]; intros t H; [reflexivity|]. cbn [sites]. rewrite (H t x (le_n _)). f_equal. apply IH. intros t' y Ht. apply H. lia.
  Qed.
  Lemma lined_chain xs : forall u k j, ch (lined 0%R) u xs k j = ch site u xs k j.
  Proof.
    induction xs as [|y ys IH]; intros u k j; [reflexivity|]. cbn [sites chain]. unfold mmul.
    apply (bsum_ext (S := R_num)). intros r Hr. rewrite IH. f_equal. cbn. ring.
  Qed.
  Lemma der_chain xs : forall t i j, der (fun s => ch (lined s) t xs i j) 0%R (bsum (S := R_ops) (List.length xs) (fun u => ch (repl (t + u)) t xs i j)).
  Proof.
    induction xs as [|x xs IH]; intros t i j.
    - cbn [List.length bsum]. exact (der_const _ _).
    - cbn [List.length sites].
      assert (E : bsum (S := R_ops) (S (List.length xs)) (fun u => chain (K := R_num) ((D, (repl (t + u)) t x) :: sites (K := R_num) D (repl (t + u)) (S t) xs) i j)
        = bsum (S := R_ops) D (fun k => (dsite t x i k * ch site (S t) xs k j + site t x i k * bsum (S := R_ops) (List.length xs) (fun u => ch (repl (S t + u)) (S t) xs k j))%R)).
      { transitivity (chain (K := R_num) ((D, (repl (t + 0)) t x) :: sites (K := R_num) D (repl (t + 0)) (S t) xs) i j
           + bsum (S := R_ops) (List.length xs) (fun u => chain (K := R_num) ((D, (repl (t + S u)) t x) :: sites (K := R_num) D (repl (t + S u)) (S t) xs) i j))%R.
        { exact (bsum_head (List.length xs) (fun u => chain (K := R_num) ((D, (repl (t + u)) t x) :: sites (K := R_num) D (repl (t + u)) (S t) xs) i j)). }
        transitivity (bsum (S := R_ops) D (fun k => dsite t x i k * ch site (S t) xs k j)%R + bsum (S := R_ops) D (fun k => site t x i k * bsum (S := R_ops) (List.length xs) (fun u => ch (repl (S t + u)) (S t) xs k j))%R)%R.
        2:{ symmetry. exact (bsum_add R_cring D _ _). }
        f_equal.
        - rewrite Nat.add_0_r. rewrite (chain_same (repl t) site xs (S t)). 2:{ intros t' y Ht. replace (t' =? t) with false by (symmetry; apply Nat.eqb_neq; lia). reflexivity. }
          cbv beta. rewrite Nat.eqb_refl. reflexivity.
        - transitivity (bsum (S := R_ops) (List.length xs) (fun u => bsum (S := R_ops) D (fun k => (site t x i k * ch (repl (S t + u)) (S t) xs k j)%R))).
          { apply (bsum_ext (S := R_ops)). intros u Hu. replace (t + S u) with (S t + u) by lia. cbv beta.
            replace (t =? S t + u) with false by (symmetry; apply Nat.eqb_neq; lia). reflexivity. }
          etransitivity; [exact (bsum_swap R_cring (List.length xs) D (fun u k => (site t x i k * ch (repl (S t + u)) (S t) xs k j)%R))|].
          apply (bsum_ext (S := R_ops)). intros k Hk. exact (bsum_mul_l R_cring (List.length xs) (site t x i k) _). }
      refine (der_eq (fun s => bsum (S := R_ops) D (fun k => ((site t x i k + s * dsite t x i k) * ch (lined s) (S t) xs k j)%R)) _ _ _ _ _ (fun s => eq_refl) (eq_sym E)).
      apply (der_bsum D (fun s k => ((site t x i k + s * dsite t x i k) * ch (lined s) (S t) xs k j)%R)).
      intros k Hk. eapply der_eq; [apply der_mul; [apply der_line|apply (IH (S t) k j)]|reflexivity|]. cbv beta.
      assert (E0 : ch (lined 0%R) (S t) xs k j = ch site (S t) xs k j).
      { apply lined_chain. }
      rewrite E0. ring.
  Qed.
  Lemma lined0 s xs (v w : nat -> R) : s = 0%R -> amplitude (K := R_num) D v w (lined s) xs = amplitude (K := R_num) D v w site xs.
  Proof. intros ->. apply (amplitude_ext R_num). intros t x i j _ _ _ _. cbn. ring. Qed.
  Lemma der_amp (v w dv dw : nat -> R) xs :
    der (fun s => amplitude (K := R_num) D (fun i => (v i + s * dv i)%R) (fun i => (w i + s * dw i)%R) (lined s) xs) 0%R (product_rule D v w dv dw site dsite xs).
  Proof.
    set (dC := fun i j => bsum (S := R_ops) (List.length xs) (fun u => ch (repl u) 0 xs i j)).
    assert (H : forall i j, der (fun s => ch (lined s) 0 xs i j) 0%R (dC i j)).
    { intros i j. exact (der_chain xs 0 i j). }
    assert (E0 : forall i j, ch (lined 0%R) 0 xs i j = ch site 0 xs i j).
    { intros i j. apply lined_chain. }
    unfold amplitude, sandwich.
    eapply der_eq; [apply (der_bsum D (fun s i => bsum (S := R_ops) D (fun j => ((v i + s * dv i) * (ch (lined s) 0 xs i j * (w j + s * dw j)))%R)));
      intros i Hi; apply (der_bsum D (fun s j => ((v i + s * dv i) * (ch (lined s) 0 xs i j * (w j + s * dw j)))%R)); intros j Hj;
      apply der_mul; [apply der_line|apply der_mul; [apply H|apply der_line]]|reflexivity|].
    cbv beta. unfold product_rule.
    transitivity (bsum (S := R_ops) D (fun i => (bsum (S := R_ops) D (fun j => (dv i * (ch site 0 xs i j * w j))%R) + bsum (S := R_ops) D (fun j => (v i * (ch site 0 xs i j * dw j))%R) + bsum (S := R_ops) (List.length xs) (fun t => bsum (S := R_ops) D (fun j => (v i * (ch (repl t) 0 xs i j * w j))%R)))%R)).
    { apply (bsum_ext (S := R_ops)). intros i Hi.
      transitivity (bsum (S := R_ops) D (fun j => (dv i * (ch site 0 xs i j * w j) + v i * (ch site 0 xs i j * dw j) + bsum (S := R_ops) (List.length xs) (fun t => v i * (ch (repl t) 0 xs i j * w j)))%R)).
      - apply (bsum_ext (S := R_ops)). intros j Hj. rewrite E0.
        assert (G : bsum (S := R_ops) (List.length xs) (fun t => (v i * (ch (repl t) 0 xs i j * w j))%R) = (v i * (dC i j * w j))%R).
        { etransitivity; [exact (bsum_mul_l R_cring (List.length xs) (v i) (fun t => (ch (repl t) 0 xs i j * w j)%R))|].
          refine (f_equal (fun z : R => (v i * z)%R) _). exact (bsum_mul_r R_cring (List.length xs) (w j) (fun t => ch (repl t) 0 xs i j)). }
        rewrite G. match goal with |- ?x = ?y => change (@eq R x y) end. ring.
      - etransitivity; [exact (bsum_add R_cring D (fun j => (dv i * (ch site 0 xs i j * w j) + v i * (ch site 0 xs i j * dw j))%R) _)|].
        refine (f_equal2 (fun a b : R => (a + b)%R) _ _); [exact (bsum_add R_cring D _ _)|].
        exact (bsum_swap R_cring D (List.length xs) _). }
    etransitivity; [exact (bsum_add R_cring D (fun i => (bsum (S := R_ops) D (fun j => (dv i * (ch site 0 xs i j * w j))%R) + bsum (S := R_ops) D (fun j => (v i * (ch site 0 xs i j * dw j))%R))%R) _)|].
    refine (f_equal2 (fun a b : R => (a + b)%R) _ _); [exact (bsum_add R_cring D _ _)|].
    exact (bsum_swap R_cring D (List.length xs) _).
  Qed.
End Chain.

(** ** The moved model *)
Section Moved.
  Variables (uniform : bool) (m d : pmps R_num) (n f D : nat).
  Hypothesis Hb : pm_bias R_num m = None -> pm_bias R_num d = None.
  Lemma moved_entry s t k i j : letter_site (K := R_num) (pm_core R_num (move m d s)) uniform (pm_bias R_num (move m d s)) t k i j
    = (letter_site (K := R_num) (pm_core R_num m) uniform (pm_bias R_num m) t k i j + s * letter_site (K := R_num) (pm_core R_num d) uniform (pm_bias R_num d) t k i j)%R.
  Proof.
    unfold letter_site, entry, move. cbn [pm_core pm_bias moved get].
    destruct (pm_bias R_num m) as [b|]; [|rewrite (Hb eq_refl)]; [destruct (pm_bias R_num d) as [c|]|]; destruct uniform; cbn; ring.
  Qed.
  Lemma moved_vec s t (phi : nat -> R) i j : vec_site (K := R_num) f (pm_core R_num (move m d s)) uniform (pm_bias R_num (move m d s)) t phi i j
    = (vec_site (K := R_num) f (pm_core R_num m) uniform (pm_bias R_num m) t phi i j + s * vec_site (K := R_num) f (pm_core R_num d) uniform (pm_bias R_num d) t phi i j)%R.
  Proof.
    unfold vec_site.
    assert (E : bsum (S := R_ops) f (fun k => (phi k * entry (K := R_num) (pm_core R_num (move m d s)) uniform t k i j)%R)
      = (bsum (S := R_ops) f (fun k => (phi k * entry (K := R_num) (pm_core R_num m) uniform t k i j)%R) + s * bsum (S := R_ops) f (fun k => (phi k * entry (K := R_num) (pm_core R_num d) uniform t k i j)%R))%R).
    { transitivity (bsum (S := R_ops) f (fun k => (phi k * entry (K := R_num) (pm_core R_num m) uniform t k i j + s * (phi k * entry (K := R_num) (pm_core R_num d) uniform t k i j))%R)).
      - apply (bsum_ext (S := R_ops)). intros k Hk. unfold entry, move. destruct uniform; cbn [pm_core moved get]; match goal with |- ?x = (phi k * ?u + s * (phi k * ?v))%R => change (phi k * (u + s * v) = phi k * u + s * (phi k * v))%R end; ring.
      - etransitivity; [exact (bsum_add R_cring f _ _)|]. refine (f_equal2 (fun a b : R => (a + b)%R) eq_refl _). exact (bsum_mul_l R_cring f s _). }
    assert (B : forall i j, bias_at (K := R_num) (pm_bias R_num (move m d s)) i j = (bias_at (K := R_num) (pm_bias R_num m) i j + s * bias_at (K := R_num) (pm_bias R_num d) i j)%R).
    { intros i' j'. unfold move. cbn [pm_bias]. destruct (pm_bias R_num m) as [b|]; [|rewrite (Hb eq_refl)]; [destruct (pm_bias R_num d) as [c|]|]; cbn; ring. }
    rewrite B. refine (eq_trans (f_equal (fun z : R => (z + _)%R) E) _). match goal with |- ?x = ?y => change (@eq R x y) end.
    change (@bsum (nring R_num) f) with (@bsum R_ops f). cbn -[bsum entry bias_at]. ring.
  Qed.
  Lemma psi_der x b : der (fun s => psi R_num uniform (move m d s) n f D x b) 0%R (row_slope uniform m d n f D x b).
  Proof.
    destruct x as [ix|v]; unfold psi, row_amp, row_slope, word_slope.
    - refine (der_eq _ _ _ _ _ (der_amp D _ _ _ _ _ _ _) _ eq_refl). intros s. apply (amplitude_ext R_num). intros. symmetry. apply moved_entry.
    - refine (der_eq _ _ _ _ _ (der_amp D _ _ _ _ _ _ _) _ eq_refl). intros s. apply (amplitude_ext R_num). intros. symmetry. apply moved_vec.
  Qed.
  Lemma word_der w : der (fun s => word_amp uniform (move m d s) D w) 0%R (word_slope uniform m d D w).
  Proof.
    unfold word_amp, word_slope. refine (der_eq _ _ _ _ _ (der_amp D _ _ _ _ _ _ _) _ eq_refl). intros s. apply (amplitude_ext R_num). intros. symmetry. apply moved_entry.
  Qed.
  Lemma moved0 w : word_amp uniform (move m d 0) D w = word_amp uniform m D w.
  Proof.
    unfold word_amp.
    transitivity (amplitude (K := R_num) D (edge_at (K := R_num) (pm_edge R_num (move m d 0)) 0) (edge_at (K := R_num) (pm_edge R_num (move m d 0)) 1) (letter_site (K := R_num) (pm_core R_num m) uniform (pm_bias R_num m)) w).
    - apply (amplitude_ext R_num). intros. refine (eq_trans (moved_entry _ _ _ _ _) _). match goal with |- ?x = ?y => change (@eq R x y) end. ring.
    - unfold amplitude. apply (sandwich_ext R_num); intros; [| |reflexivity]; unfold edge_at, move; cbn; ring.
  Qed.
  Lemma psi0 x b : psi R_num uniform (move m d 0) n f D x b = psi R_num uniform m n f D x b.
  Proof.
    destruct x as [ix|v]; [exact (moved0 _)|]. unfold psi, row_amp.
    transitivity (amplitude (K := R_num) D (edge_at (K := R_num) (pm_edge R_num (move m d 0)) 0) (edge_at (K := R_num) (pm_edge R_num (move m d 0)) 1) (vec_site (K := R_num) f (pm_core R_num m) uniform (pm_bias R_num m)) (row_vectors v n b)).
    - apply (amplitude_ext R_num). intros. refine (eq_trans (moved_vec _ _ _ _ _) _). match goal with |- ?x = ?y => change (@eq R x y) end. ring.
    - unfold amplitude. apply (sandwich_ext R_num); intros; [| |reflexivity]; unfold edge_at, move; cbn; ring.
  Qed.
  Lemma abs2R (z : R) : abs2 (K := R_num) z = (z * z)%R.
  Proof. unfold abs2. cbn. rewrite <- Rabs_mult. apply Rabs_pos_eq. apply Rle_0_sqr. Qed.
  Lemma Z_words mm : Zfun R_num uniform mm n f D = lsum (K := R_ops) (words f n) (fun w => (word_amp uniform mm D w * word_amp uniform mm D w)%R).
  Proof. unfold Zfun, partition_fn. apply (lsum_ext R_cring). intros w _. apply abs2R. Qed.
  Lemma Z_der : der (fun s => Zfun R_num uniform (move m d s) n f D) 0%R (Z_slope uniform m d n f D).
  Proof.
    eapply der_eq; [|intros s; symmetry; apply Z_words|reflexivity]. unfold Z_slope.
    apply (der_lsum (words f n) (fun s w => (word_amp uniform (move m d s) D w * word_amp uniform (move m d s) D w)%R)).
    intros w _. eapply der_eq; [apply der_mul; apply word_der|reflexivity|]. cbv beta. rewrite !moved0. ring.
  Qed.
  Lemma Z0 : Zfun R_num uniform (move m d 0) n f D = Zfun R_num uniform m n f D.
  Proof. rewrite !Z_words. apply (lsum_ext R_cring). intros w _. rewrite !moved0. reflexivity. Qed.
  Lemma moved_shapes s : shapes_of R_num uniform m n f D -> shapes_of R_num uniform (move m d s) n f D.
  Proof.
    clear Hb. unfold shapes_of, shapes_unif, shapes_fixed, move. destruct uniform; cbn [pm_core pm_edge pm_bias moved shp]; destruct (pm_bias R_num m); cbn [moved shp]; tauto.
  Qed.
  (** a differentiable quantity that is not zero stays so nearby *)
  Lemma near_nonzero (g : R -> R) (a : R) : der g 0%R a -> g 0%R <> 0%R -> locally 0%R (fun s => g s <> 0%R).
  Proof.
    intros Hg H0. assert (C : continuous (U := R_UniformSpace) g 0%R) by (apply (ex_derive_continuous (V := R_NormedModule)); exists a; exact Hg).
    exact (C (fun y => y <> 0%R) (open_neq 0 (g 0%R) H0)).
  Qed.
  Lemma near_pos (g : R -> R) (a : R) : der g 0%R a -> (0 < g 0)%R -> locally 0%R (fun s => (0 < g s)%R).
  Proof.
    intros Hg H0. assert (C : continuous (U := R_UniformSpace) g 0%R) by (apply (ex_derive_continuous (V := R_NormedModule)); exists a; exact Hg).
    exact (C (fun y => (0 < y)%R) (open_gt 0 (g 0%R) H0)).
  Qed.
  Lemma near_all k (P : nat -> R -> Prop) : (forall b, b < k -> locally 0%R (P b)) -> locally 0%R (fun s => forall b, b < k -> P b s).
  Proof.
    induction k as [|k IH]; intros H.
    - exists (mkposreal 1 Rlt_0_1). intros; lia.
    - assert (G : locally 0%R (fun s => (forall b, b < k -> P b s) /\ P k s)).
      { apply filter_and; [apply IH; intros; apply H; lia|apply H; lia]. }
      destruct G as [e G]. exists e. intros s Hs b Hb'. destruct (G s Hs) as [G1 G2]. destruct (Nat.eq_dec b k) as [->|Hne]; [exact G2|apply G1; lia].
  Qed.
  Lemma near_eps (P : R -> Prop) : locally 0%R P -> exists eps, (0 < eps)%R /\ forall s, (Rabs s < eps)%R -> P s.
  Proof.
    intros [e H]. exists (pos e). split; [apply cond_pos|]. intros s Hs. apply H. change (Rabs (s + - 0) < e)%R. replace (s + - 0)%R with s by ring. exact Hs.
  Qed.
  Lemma log_der x b : (0 < Zfun R_num uniform m n f D)%R -> psi R_num uniform m n f D x b <> 0%R ->
    der (fun s => ln (abs2 (K := R_num) (psi R_num uniform (move m d s) n f D x b) / Zfun R_num uniform (move m d s) n f D)) 0%R
      (2 * row_slope uniform m d n f D x b / psi R_num uniform m n f D x b - Z_slope uniform m d n f D / Zfun R_num uniform m n f D)%R.
  Proof.
    intros HZ Hp.
    set (p := fun s => psi R_num uniform (move m d s) n f D x b). set (z := fun s => Zfun R_num uniform (move m d s) n f D).
    assert (P0 : p 0%R = psi R_num uniform m n f D x b) by apply psi0. assert (Q0 : z 0%R = Zfun R_num uniform m n f D) by apply Z0.
    pose proof (psi_der x b) as Dp. pose proof Z_der as Dz. fold p in Dp. fold z in Dz. rewrite <- P0, <- Q0 in *.
    set (p' := row_slope uniform m d n f D x b) in *. set (z' := Z_slope uniform m d n f D) in *.
    apply (is_derive_ext (fun s => ln (p s * p s / z s))); [intros s; rewrite abs2R; reflexivity|].
    assert (Pp : (0 < p 0 * p 0)%R) by (apply Rsqr_pos_lt; exact Hp).
    assert (Dq : der (fun s => (p s * p s / z s)%R) 0%R (((p' * p 0 + p 0 * p') * z 0 - p 0 * p 0 * z') / z 0 ^ 2)%R).
    { exact (is_derive_div (fun s => (p s * p s)%R) z 0%R _ _ (der_mul p p 0%R p' p' Dp Dp) Dz ltac:(lra)). }
    eapply der_eq; [apply (is_derive_comp ln (fun s => (p s * p s / z s)%R) 0%R _ _ (is_derive_ln (p 0 * p 0 / z 0)%R ltac:(apply Rdiv_lt_0_compat; assumption)) Dq)|reflexivity|].
    change (((p' * p 0 + p 0 * p') * z 0 - p 0 * p 0 * z') / z 0 ^ 2 * / (p 0 * p 0 / z 0) = 2 * p' / p 0 - z' / z 0)%R. field. split; [lra|exact Hp].
  Qed.
End Moved.

(** *** C106: around parameters that give every sequence of the batch a positive probability, forward returns finite log
    probabilities in every direction of the parameter space, and they are differentiable: the derivative of ln p(x_b) is
    2 psi'(x_b) / psi(x_b) - Z' / Z, with psi' by the product rule and Z' = sum_w 2 psi(w) psi'(w) *)
Theorem C106_gradient (uniform : bool) (m d : pmps R_num) (x : tin R_num) (slim par : bool) (batch n f D : nat) :
  shapes_of R_num uniform m n f D -> pm_emb R_num m = None -> (pm_bias R_num m = None -> pm_bias R_num d = None) ->
  wf_input x batch n f -> 0 < n -> (slim = true -> pm_bias R_num m = None) ->
  (0 < Zfun R_num uniform m n f D)%R -> (forall b, b < batch -> psi R_num uniform m n f D x b <> 0%R) ->
  exists (eps : R) (v : nat -> R -> R), (0 < eps)%R /\
    (forall s, (Rabs s < eps)%R -> exists T, snd (fwd R_num uniform (move m d s) x slim par) = Ok T /\ shp T = [batch] /\
       forall b, b < batch -> get T [b] = XFin (v b s)) /\
    (forall b, b < batch -> is_derive (V := R_NormedModule) (v b) 0%R
       (2 * row_slope uniform m d n f D x b / psi R_num uniform m n f D x b - Z_slope uniform m d n f D / Zfun R_num uniform m n f D)%R).
Proof.
  intros Hsh He Hb Hx Hn Hsl HZ Hp.
  assert (HL : locally 0%R (fun s => (0 < Zfun R_num uniform (move m d s) n f D)%R /\ forall b, b < batch -> psi R_num uniform (move m d s) n f D x b <> 0%R)).
  { apply filter_and.
    - apply (near_pos _ _ (Z_der uniform m d n f D Hb)). rewrite (Z0 uniform m d n f D Hb). exact HZ.
    - apply (near_all batch (fun b s => psi R_num uniform (move m d s) n f D x b <> 0%R)). intros b Hb'.
      apply (near_nonzero _ _ (psi_der uniform m d n f D Hb x b)). rewrite (psi0 uniform m d n f D Hb). apply Hp, Hb'. }
  destruct (near_eps _ HL) as (eps & He0 & H).
  exists eps, (fun b s => ln (abs2 (K := R_num) (psi R_num uniform (move m d s) n f D x b) / Zfun R_num uniform (move m d s) n f D)).
  split; [exact He0|]. split.
  - intros s Hs. destruct (H s Hs) as [H1 H2].
    apply (born R_num uniform (move m d s) x slim par batch n f D); try assumption.
    + apply moved_shapes. exact Hsh.
    + intros E. cbn [move pm_bias]. rewrite (Hsl E). reflexivity.
  - intros b Hb'. apply (log_der uniform m d n f D Hb x b HZ (Hp b Hb')).
Qed.
(** discrete data: Z > 0 follows *)
(** ... and so is the loss, with minus the mean of these derivatives *)
Theorem C106_loss_gradient (uniform : bool) (m d : pmps R_num) (ix : tensor Z) (slim par : bool) (batch n f D : nat) :
  shapes_of R_num uniform m n f D -> pm_emb R_num m = None -> (pm_bias R_num m = None -> pm_bias R_num d = None) ->
  wf_input (K := R_num) (TLong ix) batch n f -> 0 < batch -> 0 < n -> (slim = true -> pm_bias R_num m = None) ->
  (forall b, b < batch -> psi R_num uniform m n f D (TLong ix) b <> 0%R) ->
  exists (eps : R) (l : R -> R), (0 < eps)%R /\
    (forall s, (Rabs s < eps)%R ->
       snd (if uniform then loss_unif R_num (move m d s) (TLong ix) slim par else loss_fixed R_num (move m d s) (TLong ix) slim par) = Ok (XFin (l s))) /\
    is_derive (V := R_NormedModule) l 0%R
      (- (bsum (S := R_ops) batch (fun b => 2 * row_slope uniform m d n f D (TLong ix) b / psi R_num uniform m n f D (TLong ix) b - Z_slope uniform m d n f D / Zfun R_num uniform m n f D) / INR batch))%R.
Proof.
  intros Hsh He Hb Hx Hbt Hn Hsl Hp.
  pose proof (psi_Z_pos R_num uniform m ix batch n f D 0 Hx Hbt (Hp 0 Hbt)) as HZ.
  destruct (C106_gradient uniform m d (TLong ix) slim par batch n f D Hsh He Hb Hx Hn Hsl HZ Hp) as (eps & v & He0 & H & Hd).
  exists eps, (fun s => (- (bsum (S := R_ops) batch (fun b => v b s) / INR batch))%R). split; [exact He0|]. split.
  - intros s Hs. destruct (H s Hs) as (T & E & HT & G). exact (C15_loss_mean R_num uniform (move m d s) (TLong ix) slim par batch T (fun b => v b s) E HT Hbt G).
  - pose proof (der_bsum batch (fun s b => v b s) 0%R _ Hd) as DS.
    eapply der_eq; [apply (der_mul _ (fun _ => (- / INR batch)%R) 0%R _ 0%R DS (der_const _ _))| |]; [intros s|]; cbv beta; unfold Rdiv; ring.
Qed.
(** the expectation of the gradient of ln p under the model itself is zero: for a batch that lists every sequence once and any
    differentiable log probabilities returned by forward along a direction *)
Theorem C106_score (uniform : bool) (m d : pmps R_num) (ix : tensor Z) (slim par : bool) (batch n f D : nat) (eps : R) (v : nat -> R -> R) (g : nat -> R) :
  shapes_of R_num uniform m n f D -> pm_emb R_num m = None -> wf_input (K := R_num) (TLong ix) batch n f -> 0 < n ->
  Permutation (map (row_letters ix n) (seq 0 batch)) (words f n) -> (0 < eps)%R ->
  (forall s, (Rabs s < eps)%R -> exists T, snd (fwd R_num uniform (move m d s) (TLong ix) slim par) = Ok T /\ forall b, b < batch -> get T [b] = XFin (v b s)) ->
  (forall b, b < batch -> is_derive (V := R_NormedModule) (v b) 0%R (g b)) ->
  bsum (S := R_ops) batch (fun b => exp (v b 0) * g b)%R = 0%R.
Proof.
  intros Hsh He Hx Hn Hperm He0 Hf Hd.
  assert (D1 : der (fun s => bsum (S := R_ops) batch (fun b => exp (v b s))) 0%R (bsum (S := R_ops) batch (fun b => exp (v b 0) * g b)%R)).
  { apply (der_bsum batch (fun s b => exp (v b s))). intros b Hb.
    eapply der_eq; [apply (is_derive_comp exp (v b) 0%R _ _ (is_derive_exp (v b 0%R)) (Hd b Hb))|reflexivity|]. change (g b * exp (v b 0) = exp (v b 0) * g b)%R. ring. }
  assert (D2 : der (fun s => bsum (S := R_ops) batch (fun b => exp (v b s))) 0%R 0%R).
  { apply (is_derive_ext_loc (fun _ => 1%R)); [|apply der_const]. exists (mkposreal eps He0). intros s Hs.
    assert (Hs' : (Rabs s < eps)%R). { change (Rabs (s - 0) < eps)%R in Hs. rewrite Rminus_0_r in Hs. exact Hs. }
    destruct (Hf s Hs') as (T & E & G).
    destruct (normalised R_num uniform (move m d s) ix slim par batch n f D T (moved_shapes uniform m d n f D s Hsh) He Hx Hn E) as [_ N].
    rewrite <- (N Hperm). apply (bsum_ext (S := R_ops)). intros b Hb. rewrite (G b Hb). reflexivity. }
  apply is_derive_unique in D1. apply is_derive_unique in D2. congruence.
Qed.
(** *** a concrete case: one site, two letters, bond dimension 1, all parameters 1, moving the core of letter 0:
    p(0) = (1+s)^2 / ((1+s)^2 + 1); the derivatives of ln p(0), ln p(1) are 1 and -1 *)
Definition gm : pmps R_num := mkP R_num (tconst [1; 2; 1; 1] 1%R) (tconst [2; 1] 1%R) None None.
Definition gd : pmps R_num := mkP R_num (mkT [1; 2; 1; 1] (fun i => match i with [_; 0; _; _] => 1%R | _ => 0%R end)) (tconst [2; 1] 0%R) None None.
Definition gx : tensor Z := mkT [2; 1] (fun i => Z.of_nat (hd 0 i)).
Example C106_met : shapes_of R_num false gm 1 2 1 /\ wf_input (K := R_num) (TLong gx) 2 1 2 /\
  Permutation (map (row_letters gx 1) (seq 0 2)) (words 2 1) /\
  (forall b, b < 2 -> psi R_num false gm 1 2 1 (TLong gx) b = 1%R) /\ Zfun R_num false gm 1 2 1 = 2%R /\
  row_slope false gm gd 1 2 1 (TLong gx) 0 = 1%R /\ row_slope false gm gd 1 2 1 (TLong gx) 1 = 0%R /\ Z_slope false gm gd 1 2 1 = 2%R.
Proof.
  assert (A : forall w, In w [[0]; [1]] -> word_amp false gm 1 w = 1%R).
  { intros w [<-|[<-|[]]]; unfold word_amp, amplitude, sandwich, chain, sites, mmul, delta, letter_site, entry, edge_at, gm, bias_at; cbn; ring. }
  assert (S0 : word_slope false gm gd 1 [0] = 1%R).
  { unfold word_slope, product_rule, amplitude, sandwich, chain, sites, mmul, delta, letter_site, entry, edge_at, gm, gd, bias_at; cbn; ring. }
  assert (S1 : word_slope false gm gd 1 [1] = 0%R).
  { unfold word_slope, product_rule, amplitude, sandwich, chain, sites, mmul, delta, letter_site, entry, edge_at, gm, gd, bias_at; cbn; ring. }
  split; [repeat split; cbn; lia|]. split; [split; [reflexivity|intros b t Hb Ht; cbn; lia]|]. split; [apply Permutation_refl|].
  split; [intros [|[|b]] Hb; [apply (A [0]); left; reflexivity|apply (A [1]); right; left; reflexivity|lia]|].
  split. { rewrite Z_words. cbn [words seq flat_map map app]. unfold lsum. cbn [fold_right]. rewrite !A by (cbn; auto). cbn. ring. }
  split; [exact S0|]. split; [exact S1|]. unfold Z_slope. cbn [words seq flat_map map app]. unfold lsum. cbn [fold_right]. rewrite !A, S0, S1 by (cbn; auto). cbn. ring.
Qed.
Print Assumptions C106_gradient.
Print Assumptions C106_loss_gradient.
Print Assumptions C106_score.
