(** * P_Descent: C110, the gradient of the training loss, and gradient descent. *)
From Coq Require Import Ring_theory Ring Reals Lra.
From Coquelicot Require Import Coquelicot.
From Verif Require Import Base Scalars Tensor Utils2 MpsBase Embeddings ProbMps Spec MatSpec ModelSpec LinAlg LogNorm ProbProofs EmbProofs SvdFinal P_Prob P_Sym2 P_Grad.
Open Scope nat_scope.

(** ** Specification *)
(** the name of one entry of one parameter tensor, and the entries a model has *)
Inductive slot := SCore (i : list nat) | SEdge (i : list nat) | SBias (i : list nat).
Definition slots (m : pmps R_num) : list slot :=
  map SCore (all_idx (shp (pm_core R_num m))) ++ map SEdge (all_idx (shp (pm_edge R_num m)))
  ++ match pm_bias R_num m with Some b => map SBias (all_idx (shp b)) | None => [] end.
Definition slot_eq_dec : forall p q : slot, {p = q} + {p <> q}.
Proof. decide equality; apply (list_eq_dec Nat.eq_dec). Defined.
(** every entry p of m changed by s * V p *)
Definition shift (m : pmps R_num) (V : slot -> R) (s : R) : pmps R_num :=
  mkP R_num (mkT (shp (pm_core R_num m)) (fun i => (get (pm_core R_num m) i + s * V (SCore i))%R))
    (mkT (shp (pm_edge R_num m)) (fun i => (get (pm_edge R_num m) i + s * V (SEdge i))%R))
    (match pm_bias R_num m with Some b => Some (mkT (shp b) (fun i => (get b i + s * V (SBias i))%R)) | None => None end)
    (pm_emb R_num m).
(** the loss a call reports *)
Definition loss_of (uniform : bool) (m : pmps R_num) (x : tin R_num) (slim par : bool) :=
  snd (if uniform then loss_unif R_num m x slim par else loss_fixed R_num m x slim par).
(** sum_p a_p b_p over the parameters of m *)
Definition dot (m : pmps R_num) (a b : slot -> R) : R := lsum (K := R_ops) (slots m) (fun p => a p * b p)%R.
(** G is the gradient of the loss at m: along every line through m the loss is finite near m, and its derivative there is <G, V> *)
Definition is_gradient (uniform : bool) (m : pmps R_num) (x : tin R_num) (slim par : bool) (G : slot -> R) : Prop :=
  forall V, exists (eps : R) (l : R -> R), (0 < eps)%R /\
    (forall s, (Rabs s < eps)%R -> loss_of uniform (shift m V s) x slim par = Ok (XFin (l s))) /\
    is_derive (V := R_NormedModule) l 0%R (dot m G V).

(** ** Linear functionals of finitely many coordinates *)
Definition unit_slot (p q : slot) : R := if slot_eq_dec p q then 1%R else 0%R.
Lemma functional (L0 : list slot) (phi : (slot -> R) -> R) :
  (forall V W a, phi (fun p => (V p + a * W p)%R) = (phi V + a * phi W)%R) ->
  (forall V W, (forall p, In p L0 -> V p = W p) -> phi V = phi W) -> NoDup L0 ->
  forall V, phi V = lsum (K := R_ops) L0 (fun p => (phi (unit_slot p) * V p)%R).
Proof.
  intros Hl He HN V.
  assert (Z : phi (fun _ => 0%R) = 0%R).
  { pose proof (Hl (fun _ => 0%R) (fun _ => 0%R) (-1)%R) as E. cbv beta in E.
    rewrite (He (fun _ => (0 + -1 * 0)%R) (fun _ => 0%R)) in E by (intros; ring). lra. }
  assert (G : forall L, NoDup L -> phi (fun p => if in_dec slot_eq_dec p L then V p else 0%R) = lsum (K := R_ops) L (fun p => (phi (unit_slot p) * V p)%R)).
  { induction L as [|q L IH]; intros HL.
    - exact Z.
    - inversion HL as [|? ? Hq HL']; subst.
      transitivity (phi (fun p => ((if in_dec slot_eq_dec p L then V p else 0%R) + V q * unit_slot q p)%R)).
      + apply He. intros p _. unfold unit_slot. destruct (in_dec slot_eq_dec p (q :: L)) as [H|H]; destruct (in_dec slot_eq_dec p L) as [H'|H']; destruct (slot_eq_dec q p) as [E|E]; subst;
          try contradiction; try (exfalso; apply H; cbn; auto; fail); try ring.
        destruct H as [H|H]; contradiction.
      + rewrite Hl, (IH HL'). change (lsum (K := R_ops) (q :: L) (fun p => (phi (unit_slot p) * V p)%R)) with (phi (unit_slot q) * V q + lsum (K := R_ops) L (fun p => (phi (unit_slot p) * V p)%R))%R.
        rewrite (Rmult_comm (V q)). apply Rplus_comm. }
  rewrite <- (G L0 HN). apply He. intros p Hp. destruct (in_dec slot_eq_dec p L0); [reflexivity|contradiction].
Qed.

(** ** The product rule is linear in the direction *)
Section Lin.
  Context {X : Type}.
  Variables (D : nat) (v w : nat -> R) (site : nat -> X -> nat -> nat -> R).
  Notation repl ds u := (fun t' x => if t' =? u then ds t' x else site t' x).
  Notation ch st t xs := (chain (K := R_num) (sites (K := R_num) D st t xs)).
  Notation comb ds1 ds2 a := (fun t x i j => (ds1 t x i j + a * ds2 t x i j)%R).
  Lemma chain_lin (ds1 ds2 : nat -> X -> nat -> nat -> R) (a : R) xs : forall t u i j, u < List.length xs ->
    ch (repl (comb ds1 ds2 a) (t + u)) t xs i j = (ch (repl ds1 (t + u)) t xs i j + a * ch (repl ds2 (t + u)) t xs i j)%R.
  Proof.
    induction xs as [|x xs IH]; intros t u i j Hu; [cbn in Hu; lia|]. cbn [sites chain]. unfold mmul.
    transitivity (bsum (S := R_ops) D (fun k => ((if t =? t + u then ds1 t x else site t x) i k * ch (repl ds1 (t + u)) (S t) xs k j
        + a * ((if t =? t + u then ds2 t x else site t x) i k * ch (repl ds2 (t + u)) (S t) xs k j))%R)).
    - apply (bsum_ext (S := R_ops)). intros k Hk. destruct u as [|u].
      + rewrite Nat.add_0_r, Nat.eqb_refl.
        assert (E : forall ds, sites (K := R_num) D (repl ds t) (S t) xs = sites (K := R_num) D site (S t) xs).
        { intros ds. apply chain_same. intros t' y Ht. replace (t' =? t) with false by (symmetry; apply Nat.eqb_neq; lia). reflexivity. }
        rewrite !E. generalize (ch site (S t) xs k j). intros c. change ((ds1 t x i k + a * ds2 t x i k) * c = ds1 t x i k * c + a * (ds2 t x i k * c))%R. ring.
      + replace (t =? t + S u) with false by (symmetry; apply Nat.eqb_neq; lia). replace (t + S u) with (S t + u) by lia.
        refine (eq_trans (f_equal (fun z : R => (site t x i k * z)%R) (IH (S t) u k j ltac:(cbn in Hu; lia))) _).
        generalize (ch (repl ds1 (S t + u)) (S t) xs k j) (ch (repl ds2 (S t + u)) (S t) xs k j). intros c1 c2.
        change (site t x i k * (c1 + a * c2) = site t x i k * c1 + a * (site t x i k * c2))%R. ring.
    - etransitivity; [exact (bsum_add R_cring D _ _)|]. refine (f_equal (fun z : R => (_ + z)%R) _). exact (bsum_mul_l R_cring D a _).
  Qed.
  Lemma amp_lin_l (v1 v2 w0 : nat -> R) st (a : R) xs : amplitude (K := R_num) (X := X) D (fun i => (v1 i + a * v2 i)%R) w0 st xs
    = (amplitude (K := R_num) D v1 w0 st xs + a * amplitude (K := R_num) D v2 w0 st xs)%R.
  Proof.
    unfold amplitude, sandwich. generalize (ch st 0 xs). intros C.
    transitivity (bsum (S := R_ops) D (fun i => (bsum (S := R_ops) D (fun j => (v1 i * (C i j * w0 j))%R) + a * bsum (S := R_ops) D (fun j => (v2 i * (C i j * w0 j))%R))%R)).
    - apply (bsum_ext (S := R_ops)). intros i Hi.
      transitivity (bsum (S := R_ops) D (fun j => (v1 i * (C i j * w0 j) + a * (v2 i * (C i j * w0 j)))%R)).
      + apply (bsum_ext (S := R_ops)). intros j Hj. change ((v1 i + a * v2 i) * (C i j * w0 j) = v1 i * (C i j * w0 j) + a * (v2 i * (C i j * w0 j)))%R. ring.
      + etransitivity; [exact (bsum_add R_cring D _ _)|]. refine (f_equal (fun z : R => (_ + z)%R) _). exact (bsum_mul_l R_cring D a _).
    - etransitivity; [exact (bsum_add R_cring D _ _)|]. refine (f_equal (fun z : R => (_ + z)%R) _). exact (bsum_mul_l R_cring D a _).
  Qed.
  Lemma amp_lin_r (v0 w1 w2 : nat -> R) st (a : R) xs : amplitude (K := R_num) (X := X) D v0 (fun i => (w1 i + a * w2 i)%R) st xs
    = (amplitude (K := R_num) D v0 w1 st xs + a * amplitude (K := R_num) D v0 w2 st xs)%R.
  Proof.
    unfold amplitude, sandwich. generalize (ch st 0 xs). intros C.
    transitivity (bsum (S := R_ops) D (fun i => (bsum (S := R_ops) D (fun j => (v0 i * (C i j * w1 j))%R) + a * bsum (S := R_ops) D (fun j => (v0 i * (C i j * w2 j))%R))%R)).
    - apply (bsum_ext (S := R_ops)). intros i Hi.
      transitivity (bsum (S := R_ops) D (fun j => (v0 i * (C i j * w1 j) + a * (v0 i * (C i j * w2 j)))%R)).
      + apply (bsum_ext (S := R_ops)). intros j Hj. change (v0 i * (C i j * (w1 j + a * w2 j)) = v0 i * (C i j * w1 j) + a * (v0 i * (C i j * w2 j)))%R. ring.
      + etransitivity; [exact (bsum_add R_cring D _ _)|]. refine (f_equal (fun z : R => (_ + z)%R) _). exact (bsum_mul_l R_cring D a _).
    - etransitivity; [exact (bsum_add R_cring D _ _)|]. refine (f_equal (fun z : R => (_ + z)%R) _). exact (bsum_mul_l R_cring D a _).
  Qed.
  Lemma amp_lin_m (C1 C2 : nat -> nat -> R) (a : R) : sandwich (K := R_num) D D v (fun i j => (C1 i j + a * C2 i j)%R) w
    = (sandwich (K := R_num) D D v C1 w + a * sandwich (K := R_num) D D v C2 w)%R.
  Proof.
    unfold sandwich.
    transitivity (bsum (S := R_ops) D (fun i => (bsum (S := R_ops) D (fun j => (v i * (C1 i j * w j))%R) + a * bsum (S := R_ops) D (fun j => (v i * (C2 i j * w j))%R))%R)).
    - apply (bsum_ext (S := R_ops)). intros i Hi.
      transitivity (bsum (S := R_ops) D (fun j => (v i * (C1 i j * w j) + a * (v i * (C2 i j * w j)))%R)).
      + apply (bsum_ext (S := R_ops)). intros j Hj. change (v i * ((C1 i j + a * C2 i j) * w j) = v i * (C1 i j * w j) + a * (v i * (C2 i j * w j)))%R. ring.
      + etransitivity; [exact (bsum_add R_cring D _ _)|]. refine (f_equal (fun z : R => (_ + z)%R) _). exact (bsum_mul_l R_cring D a _).
    - etransitivity; [exact (bsum_add R_cring D _ _)|]. refine (f_equal (fun z : R => (_ + z)%R) _). exact (bsum_mul_l R_cring D a _).
  Qed.
  Lemma rule_lin (dv1 dv2 dw1 dw2 : nat -> R) (ds1 ds2 : nat -> X -> nat -> nat -> R) (a : R) xs :
    product_rule D v w (fun i => (dv1 i + a * dv2 i)%R) (fun i => (dw1 i + a * dw2 i)%R) site (comb ds1 ds2 a) xs
    = (product_rule D v w dv1 dw1 site ds1 xs + a * product_rule D v w dv2 dw2 site ds2 xs)%R.
  Proof.
    unfold product_rule. rewrite amp_lin_l, amp_lin_r.
    assert (E : bsum (S := R_ops) (List.length xs) (fun t => amplitude (K := R_num) D v w (repl (comb ds1 ds2 a) t) xs)
      = (bsum (S := R_ops) (List.length xs) (fun t => amplitude (K := R_num) D v w (repl ds1 t) xs) + a * bsum (S := R_ops) (List.length xs) (fun t => amplitude (K := R_num) D v w (repl ds2 t) xs))%R).
    { transitivity (bsum (S := R_ops) (List.length xs) (fun t => (amplitude (K := R_num) D v w (repl ds1 t) xs + a * amplitude (K := R_num) D v w (repl ds2 t) xs)%R)).
      - apply (bsum_ext (S := R_ops)). intros t Ht. unfold amplitude. refine (eq_trans _ (amp_lin_m _ _ a)).
        apply (sandwich_ext R_num); [reflexivity|reflexivity|]. intros i j _ _. exact (chain_lin ds1 ds2 a xs 0 t i j Ht).
      - etransitivity; [exact (bsum_add R_cring (List.length xs) _ _)|]. refine (f_equal (fun z : R => (_ + z)%R) _). exact (bsum_mul_l R_cring (List.length xs) a _). }
    rewrite E. ring.
  Qed.
  Lemma rule_ext (dv1 dv2 dw1 dw2 : nat -> R) (ds1 ds2 : nat -> X -> nat -> nat -> R) xs :
    (forall i, i < D -> dv1 i = dv2 i) -> (forall i, i < D -> dw1 i = dw2 i) ->
    (forall t x i j, t < List.length xs -> In x xs -> i < D -> j < D -> ds1 t x i j = ds2 t x i j) ->
    product_rule D v w dv1 dw1 site ds1 xs = product_rule D v w dv2 dw2 site ds2 xs.
  Proof.
    intros Hv Hw Hs. unfold product_rule.
    assert (E1 : amplitude (K := R_num) D dv1 w site xs = amplitude (K := R_num) D dv2 w site xs) by (apply (sandwich_ext R_num); auto).
    assert (E2 : amplitude (K := R_num) D v dw1 site xs = amplitude (K := R_num) D v dw2 site xs) by (apply (sandwich_ext R_num); auto).
    assert (E3 : bsum (S := R_ops) (List.length xs) (fun t => amplitude (K := R_num) D v w (repl ds1 t) xs) = bsum (S := R_ops) (List.length xs) (fun t => amplitude (K := R_num) D v w (repl ds2 t) xs)).
    { apply (bsum_ext (S := R_ops)). intros t Ht. apply (amplitude_ext R_num). intros t' x i j H1 H2 H3 H4. cbv beta. destruct (t' =? t); auto. }
    rewrite E1, E2, E3. reflexivity.
  Qed.
End Lin.

(** ** The slope of the loss in a direction *)
Definition dir (m : pmps R_num) (V : slot -> R) : pmps R_num :=
  mkP R_num (mkT (shp (pm_core R_num m)) (fun i => V (SCore i))) (mkT (shp (pm_edge R_num m)) (fun i => V (SEdge i)))
    (match pm_bias R_num m with Some b => Some (mkT (shp b) (fun i => V (SBias i))) | None => None end) None.
Lemma shift_move m V s : shift m V s = move m (dir m V) s.
Proof. unfold shift, move, dir. cbn [pm_core pm_edge pm_bias shp get moved]. destruct (pm_bias R_num m); reflexivity. Qed.
Lemma dir_bias m V : pm_bias R_num m = None -> pm_bias R_num (dir m V) = None.
Proof. unfold dir. cbn [pm_bias]. intros ->. reflexivity. Qed.
Lemma slots_nodup m : NoDup (slots m).
Proof.
  assert (N : forall l1 l2 : list slot, NoDup l1 -> NoDup l2 -> (forall x, In x l1 -> ~ In x l2) -> NoDup (l1 ++ l2)).
  { induction l1 as [|x l1 IHl]; intros l2 H1 H2 H; [exact H2|]. inversion H1; subst. cbn. constructor.
    - rewrite in_app_iff. intros [X|X]; [contradiction|]. apply (H x); [left; reflexivity|exact X].
    - apply IHl; auto. intros y Hy. apply H. right; exact Hy. }
  assert (M : forall (g : list nat -> slot) sh, (forall x y, g x = g y -> x = y) -> NoDup (map g (all_idx sh))).
  { intros g sh Hg. apply FinFun.Injective_map_NoDup; [exact Hg|apply all_idx_nodup]. }
  unfold slots. apply N; [apply M; congruence|apply N; [apply M; congruence| |]|].
  - destruct (pm_bias R_num m); [apply M; congruence|constructor].
  - intros x Hx Hy. destruct (pm_bias R_num m); [|exact Hy]. apply in_map_iff in Hx as (i & <- & _). apply in_map_iff in Hy as (j & E & _). discriminate E.
  - intros x Hx Hy. apply in_map_iff in Hx as (i & <- & _). apply in_app_iff in Hy as [Hy|Hy].
    + apply in_map_iff in Hy as (j & E & _). discriminate E.
    + destruct (pm_bias R_num m); [|exact Hy]. apply in_map_iff in Hy as (j & E & _). discriminate E.
Qed.
Section Slope.
  Variables (uniform : bool) (m : pmps R_num) (n f D : nat).
  Hypothesis Hsh : shapes_of R_num uniform m n f D.
  Lemma in_edge k i : k < 2 -> i < D -> In (SEdge [k; i]) (slots m).
  Proof.
    intros Hk Hi. destruct (shapes_get R_num uniform m n f D Hsh) as (_ & _ & _ & He & _). unfold slots. apply in_or_app. right. apply in_or_app. left.
    apply in_map. apply all_idx_spec. assert (He' : @shp (car R_ops) (pm_edge R_num m) = [2; D]) by exact He. unfold valid.
    change (Forall2 lt [k; i] (@shp (car R_ops) (pm_edge R_num m))). rewrite He'. repeat (apply Forall2_cons; [assumption|]). apply Forall2_nil.
  Qed.
  Lemma in_core t k i j : (uniform = false -> t < n) -> k < f -> i < D -> j < D -> In (SCore (if uniform then [k; i; j] else [t; k; i; j])) (slots m).
  Proof.
    intros Ht Hk Hi Hj. destruct (shapes_get R_num uniform m n f D Hsh) as (_ & _ & Hc & _ & _). unfold slots. apply in_or_app. left.
    apply in_map. apply all_idx_spec. unfold valid.
    match type of Hc with _ = ?r => assert (Hc' : @shp (car R_ops) (pm_core R_num m) = r) by exact Hc end.
    match goal with |- Forall2 lt ?a _ => change (Forall2 lt a (@shp (car R_ops) (pm_core R_num m))) end. rewrite Hc'.
    destruct uniform; repeat (apply Forall2_cons; [auto|]); apply Forall2_nil.
  Qed.
  Lemma in_bias b i j : pm_bias R_num m = Some b -> i < D -> j < D -> In (SBias [i; j]) (slots m).
  Proof.
    intros Hb Hi Hj. destruct (shapes_get R_num uniform m n f D Hsh) as (_ & _ & _ & _ & H). unfold slots. apply in_or_app. right. apply in_or_app. right.
    rewrite Hb in *. apply in_map. apply all_idx_spec. unfold valid.
    assert (H' : @shp (car R_ops) b = [D; D]) by exact H. change (Forall2 lt [i; j] (@shp (car R_ops) b)). rewrite H'. repeat (apply Forall2_cons; [auto|]). apply Forall2_nil.
  Qed.
  Lemma dir_entry V W a t k i j : letter_site (K := R_num) (pm_core R_num (dir m (fun p => (V p + a * W p)%R))) uniform (pm_bias R_num (dir m (fun p => (V p + a * W p)%R))) t k i j
    = (letter_site (K := R_num) (pm_core R_num (dir m V)) uniform (pm_bias R_num (dir m V)) t k i j + a * letter_site (K := R_num) (pm_core R_num (dir m W)) uniform (pm_bias R_num (dir m W)) t k i j)%R.
  Proof. clear Hsh. unfold letter_site, entry, dir. cbn [pm_core pm_bias get]. destruct (pm_bias R_num m), uniform; cbn; ring. Qed.
  Lemma dir_vec V W a t (ph : nat -> R) i j : vec_site (K := R_num) f (pm_core R_num (dir m (fun p => (V p + a * W p)%R))) uniform (pm_bias R_num (dir m (fun p => (V p + a * W p)%R))) t ph i j
    = (vec_site (K := R_num) f (pm_core R_num (dir m V)) uniform (pm_bias R_num (dir m V)) t ph i j + a * vec_site (K := R_num) f (pm_core R_num (dir m W)) uniform (pm_bias R_num (dir m W)) t ph i j)%R.
  Proof.
    clear Hsh. unfold vec_site.
    assert (E : bsum (S := R_ops) f (fun k => (ph k * entry (K := R_num) (pm_core R_num (dir m (fun p => (V p + a * W p)%R))) uniform t k i j)%R)
      = (bsum (S := R_ops) f (fun k => (ph k * entry (K := R_num) (pm_core R_num (dir m V)) uniform t k i j)%R) + a * bsum (S := R_ops) f (fun k => (ph k * entry (K := R_num) (pm_core R_num (dir m W)) uniform t k i j)%R))%R).
    { transitivity (bsum (S := R_ops) f (fun k => (ph k * entry (K := R_num) (pm_core R_num (dir m V)) uniform t k i j + a * (ph k * entry (K := R_num) (pm_core R_num (dir m W)) uniform t k i j))%R)).
      - apply (bsum_ext (S := R_ops)). intros k Hk. unfold entry, dir. destruct uniform; cbn [pm_core get]; match goal with |- ?x = (ph k * ?u + a * (ph k * ?v))%R => change (ph k * (u + a * v) = ph k * u + a * (ph k * v))%R end; ring.
      - etransitivity; [exact (bsum_add R_cring f _ _)|]. refine (f_equal2 (fun a b : R => (a + b)%R) eq_refl _). exact (bsum_mul_l R_cring f a _). }
    assert (B : forall i j, bias_at (K := R_num) (pm_bias R_num (dir m (fun p => (V p + a * W p)%R))) i j = (bias_at (K := R_num) (pm_bias R_num (dir m V)) i j + a * bias_at (K := R_num) (pm_bias R_num (dir m W)) i j)%R).
    { intros i' j'. unfold dir. cbn [pm_bias]. destruct (pm_bias R_num m) as [b|]; cbn; ring. }
    rewrite B. refine (eq_trans (f_equal (fun z : R => (z + _)%R) E) _). match goal with |- ?x = ?y => change (@eq R x y) end.
    change (@bsum (nring R_num) f) with (@bsum R_ops f). cbn -[bsum entry bias_at]. ring.
  Qed.
  Lemma word_lin V W a w : word_slope uniform m (dir m (fun p => (V p + a * W p)%R)) D w = (word_slope uniform m (dir m V) D w + a * word_slope uniform m (dir m W) D w)%R.
  Proof.
    unfold word_slope. refine (eq_trans _ (rule_lin D _ _ _ _ _ _ _ _ _ a w)). apply rule_ext; [reflexivity|reflexivity|]. intros; apply dir_entry.
  Qed.
  Lemma row_lin V W a x b : row_slope uniform m (dir m (fun p => (V p + a * W p)%R)) n f D x b = (row_slope uniform m (dir m V) n f D x b + a * row_slope uniform m (dir m W) n f D x b)%R.
  Proof.
    destruct x as [ix|v]; [apply word_lin|]. unfold row_slope. refine (eq_trans _ (rule_lin D _ _ _ _ _ _ _ _ _ a _)). apply rule_ext; [reflexivity|reflexivity|]. intros; apply dir_vec.
  Qed.
  Lemma Z_lin V W a : Z_slope uniform m (dir m (fun p => (V p + a * W p)%R)) n f D = (Z_slope uniform m (dir m V) n f D + a * Z_slope uniform m (dir m W) n f D)%R.
  Proof.
    unfold Z_slope. generalize (words f n). induction l as [|w l IH]; [change (0 = 0 + a * 0)%R; ring|].
    repeat match goal with |- context [lsum (K := R_ops) (w :: l) ?g] => change (lsum (K := R_ops) (w :: l) g) with (g w + lsum (K := R_ops) l g)%R end.
    cbv beta. rewrite IH, word_lin. generalize (lsum (K := R_ops) l (fun w0 => (2 * word_amp uniform m D w0 * word_slope uniform m (dir m V) D w0)%R)) (lsum (K := R_ops) l (fun w0 => (2 * word_amp uniform m D w0 * word_slope uniform m (dir m W) D w0)%R)).
    intros p q. ring.
  Qed.
  Variables (V W : slot -> R).
  Hypothesis Hag : forall p, In p (slots m) -> V p = W p.
  Lemma ag_bias i j : i < D -> j < D -> bias_at (K := R_num) (pm_bias R_num (dir m V)) i j = bias_at (K := R_num) (pm_bias R_num (dir m W)) i j.
  Proof.
    intros Hi Hj. pose proof (fun b E => in_bias b i j E Hi Hj) as H. unfold dir. cbn [pm_bias]. destruct (pm_bias R_num m) as [b|]; [|reflexivity]. cbn. apply Hag. exact (H b eq_refl).
  Qed.
  Lemma ag_entry t k i j : (uniform = false -> t < n) -> k < f -> i < D -> j < D -> entry (K := R_num) (pm_core R_num (dir m V)) uniform t k i j = entry (K := R_num) (pm_core R_num (dir m W)) uniform t k i j.
  Proof.
    intros Ht Hk Hi Hj. pose proof (in_core t k i j Ht Hk Hi Hj) as H. unfold entry, dir. cbn [pm_core get]. destruct uniform; apply Hag; exact H.
  Qed.
  Lemma word_same w : List.length w = n -> (forall k, In k w -> k < f) -> word_slope uniform m (dir m V) D w = word_slope uniform m (dir m W) D w.
  Proof.
    intros Hl Hk. unfold word_slope. apply rule_ext.
    - intros i Hi. unfold edge_at, dir. cbn. apply Hag, in_edge; auto.
    - intros i Hi. unfold edge_at, dir. cbn. apply Hag, in_edge; auto.
    - intros t k i j Ht Hin Hi Hj. unfold letter_site. rewrite ag_entry, ag_bias by (auto; lia). reflexivity.
  Qed.
  Lemma row_same x batch b : wf_input x batch n f -> b < batch -> row_slope uniform m (dir m V) n f D x b = row_slope uniform m (dir m W) n f D x b.
  Proof.
    intros Hx Hb. destruct x as [ix|v]; cbn [row_slope].
    - destruct Hx as [_ Hx]. apply word_same; [unfold row_letters; rewrite map_length, seq_length; reflexivity|].
      intros k Hk. apply in_map_iff in Hk as (t & <- & Ht). apply in_seq in Ht. specialize (Hx b t Hb ltac:(lia)). lia.
    - apply rule_ext.
      + intros i Hi. unfold edge_at, dir. cbn. apply Hag, in_edge; auto.
      + intros i Hi. unfold edge_at, dir. cbn. apply Hag, in_edge; auto.
      + intros t ph i j Ht Hin Hi Hj. unfold row_vectors in Ht. rewrite map_length, seq_length in Ht. unfold vec_site. rewrite ag_bias by auto.
        refine (f_equal (fun z : R => (z + _)%R) _). apply (bsum_ext (S := R_ops)). intros k Hk. refine (f_equal (fun z : R => (_ * z)%R) _). apply ag_entry; auto.
  Qed.
  Lemma Z_same : Z_slope uniform m (dir m V) n f D = Z_slope uniform m (dir m W) n f D.
  Proof.
    unfold Z_slope. apply (lsum_ext R_cring). intros w Hw. rewrite (word_same w); [reflexivity|apply (words_length _ _ _ Hw)|].
    intros k Hk. apply (words_letters _ _ _ Hw k Hk).
  Qed.
End Slope.
Definition total (uniform : bool) (m : pmps R_num) (n f D : nat) (x : tin R_num) (batch : nat) (V : slot -> R) : R :=
  (- (bsum (S := R_ops) batch (fun b => 2 * row_slope uniform m (dir m V) n f D x b / psi R_num uniform m n f D x b - Z_slope uniform m (dir m V) n f D / Zfun R_num uniform m n f D) / INR batch))%R.
Lemma total_lin uniform m n f D x batch V W a :
  total uniform m n f D x batch (fun p => (V p + a * W p)%R) = (total uniform m n f D x batch V + a * total uniform m n f D x batch W)%R.
Proof.
  unfold total.
  assert (E : forall k, bsum (S := R_ops) k (fun b => 2 * row_slope uniform m (dir m (fun p => (V p + a * W p)%R)) n f D x b / psi R_num uniform m n f D x b - Z_slope uniform m (dir m (fun p => (V p + a * W p)%R)) n f D / Zfun R_num uniform m n f D)%R
    = (bsum (S := R_ops) k (fun b => 2 * row_slope uniform m (dir m V) n f D x b / psi R_num uniform m n f D x b - Z_slope uniform m (dir m V) n f D / Zfun R_num uniform m n f D)%R
       + a * bsum (S := R_ops) k (fun b => 2 * row_slope uniform m (dir m W) n f D x b / psi R_num uniform m n f D x b - Z_slope uniform m (dir m W) n f D / Zfun R_num uniform m n f D)%R)%R).
  { intros k. transitivity (bsum (S := R_ops) k (fun b => ((2 * row_slope uniform m (dir m V) n f D x b / psi R_num uniform m n f D x b - Z_slope uniform m (dir m V) n f D / Zfun R_num uniform m n f D)
       + a * (2 * row_slope uniform m (dir m W) n f D x b / psi R_num uniform m n f D x b - Z_slope uniform m (dir m W) n f D / Zfun R_num uniform m n f D))%R)).
    - apply (bsum_ext (S := R_ops)). intros b Hb. rewrite row_lin, Z_lin. match goal with |- ?x = ?y => change (@eq R x y) end. unfold Rdiv. ring.
    - etransitivity; [exact (bsum_add R_cring k _ _)|]. refine (f_equal (fun z : R => (_ + z)%R) _). exact (bsum_mul_l R_cring k a _). }
  rewrite E. unfold Rdiv. ring.
Qed.
Lemma total_same uniform m n f D x batch V W : shapes_of R_num uniform m n f D -> wf_input x batch n f ->
  (forall p, In p (slots m) -> V p = W p) -> total uniform m n f D x batch V = total uniform m n f D x batch W.
Proof.
  intros Hsh Hx H. unfold total. rewrite (Z_same uniform m n f D Hsh V W H).
  assert (E : bsum (S := R_ops) batch (fun b => 2 * row_slope uniform m (dir m V) n f D x b / psi R_num uniform m n f D x b - Z_slope uniform m (dir m W) n f D / Zfun R_num uniform m n f D)%R
    = bsum (S := R_ops) batch (fun b => 2 * row_slope uniform m (dir m W) n f D x b / psi R_num uniform m n f D x b - Z_slope uniform m (dir m W) n f D / Zfun R_num uniform m n f D)%R).
  { apply (bsum_ext (S := R_ops)). intros b Hb. rewrite (row_same uniform m n f D Hsh V W H x batch b Hx Hb). reflexivity. }
  rewrite E. reflexivity.
Qed.
Section Thm.
  Variables (uniform : bool) (m : pmps R_num) (x : tin R_num) (slim par : bool) (batch n f D : nat).
  Hypotheses (Hsh : shapes_of R_num uniform m n f D) (Hemb : pm_emb R_num m = None) (Hx : wf_input x batch n f) (Hbt : 0 < batch) (Hn : 0 < n)
    (Hsl : slim = true -> pm_bias R_num m = None) (HZ : (0 < Zfun R_num uniform m n f D)%R) (Hp : forall b, b < batch -> psi R_num uniform m n f D x b <> 0%R).
  Lemma line V : exists (eps : R) (l : R -> R), (0 < eps)%R /\
    (forall s, (Rabs s < eps)%R -> loss_of uniform (shift m V s) x slim par = Ok (XFin (l s))) /\
    is_derive (V := R_NormedModule) l 0%R (total uniform m n f D x batch V).
  Proof.
    destruct (C106_gradient uniform m (dir m V) x slim par batch n f D Hsh Hemb (dir_bias m V) Hx Hn Hsl HZ Hp) as (eps & v & He0 & H & Hd).
    exists eps, (fun s => (- (bsum (S := R_ops) batch (fun b => v b s) / INR batch))%R). split; [exact He0|]. split.
    - intros s Hs. destruct (H s Hs) as (T & E & HT & G). rewrite shift_move. exact (C15_loss_mean R_num uniform (move m (dir m V) s) x slim par batch T (fun b => v b s) E HT Hbt G).
    - pose proof (der_bsum batch (fun s b => v b s) 0%R _ Hd) as DS. unfold total.
      eapply der_eq; [apply (der_mul _ (fun _ => (- / INR batch)%R) 0%R _ 0%R DS (der_const _ _))| |]; [intros s|]; cbv beta; unfold Rdiv; ring.
  Qed.
  Lemma gradient_total G : is_gradient uniform m x slim par G -> forall V, dot m G V = total uniform m n f D x batch V.
  Proof.
    intros HG V. destruct (HG V) as (e1 & l1 & He1 & H1 & D1). destruct (line V) as (e2 & l2 & He2 & H2 & D2).
    apply is_derive_unique in D1. rewrite <- D1. apply is_derive_unique. apply (is_derive_ext_loc l2); [|exact D2].
    assert (Hm : (0 < Rmin e1 e2)%R) by (apply Rmin_glb_lt; assumption). exists (mkposreal _ Hm). intros s Hs.
    assert (Hs' : (Rabs s < Rmin e1 e2)%R). { change (Rabs (s - 0) < Rmin e1 e2)%R in Hs. rewrite Rminus_0_r in Hs. exact Hs. }
    pose proof (Rmin_l e1 e2). pose proof (Rmin_r e1 e2).
    pose proof (H1 s ltac:(lra)) as A. pose proof (H2 s ltac:(lra)) as B. rewrite A in B. injection B as B. symmetry. exact B.
  Qed.
  Lemma total_gradient : is_gradient uniform m x slim par (fun p => total uniform m n f D x batch (unit_slot p)).
  Proof.
    intros V. destruct (line V) as (eps & l & He & H & Hd). exists eps, l. split; [exact He|]. split; [exact H|].
    rewrite (functional (slots m) (total uniform m n f D x batch)) in Hd; [exact Hd| | |apply slots_nodup].
    - intros; apply total_lin.
    - intros V1 V2 H12. apply total_same; assumption.
  Qed.
End Thm.

(** *** C110: where every sequence of the batch has positive probability the training loss has a gradient with respect to all the
    parameters, for vectors and for letters *)
Theorem C110_gradient (uniform : bool) (m : pmps R_num) (x : tin R_num) (slim par : bool) (batch n f D : nat) :
  shapes_of R_num uniform m n f D -> pm_emb R_num m = None -> wf_input x batch n f -> 0 < batch -> 0 < n ->
  (slim = true -> pm_bias R_num m = None) ->
  (0 < Zfun R_num uniform m n f D)%R -> (forall b, b < batch -> psi R_num uniform m n f D x b <> 0%R) ->
  exists G, is_gradient uniform m x slim par G.
Proof. intros. exists (fun p => total uniform m n f D x batch (unit_slot p)). apply total_gradient; assumption. Qed.
Lemma shift0 m V : shift m V 0 = m.
Proof.
  destruct m as [c e b em]. unfold shift. cbn [pm_core pm_edge pm_bias pm_emb].
  assert (E : forall (t : tensor R) (g : list nat -> slot), mkT (shp t) (fun i => (get t i + 0 * V (g i))%R) = t).
  { intros [sh g] h. cbn [shp get]. f_equal. apply FunctionalExtensionality.functional_extensionality. intros i. ring. }
  f_equal; [exact (E c SCore)|exact (E e SEdge)|]. destruct b as [b|]; [|reflexivity]. exact (f_equal Some (E b SBias)).
Qed.
Lemma dot_unit m G p : In p (slots m) -> dot m G (unit_slot p) = G p.
Proof.
  unfold dot. pose proof (slots_nodup m) as HN. induction HN as [|q L Hq HN IH]; intros Hin; [destruct Hin|].
  change (lsum (K := R_ops) (q :: L) (fun q => (G q * unit_slot p q)%R)) with (G q * unit_slot p q + lsum (K := R_ops) L (fun q => (G q * unit_slot p q)%R))%R.
  destruct Hin as [->|Hin].
  - assert (E : lsum (K := R_ops) L (fun q => (G q * unit_slot p q)%R) = 0%R).
    { apply (lsum_zero R_cring). intros q Hin. unfold unit_slot. destruct (slot_eq_dec p q) as [->|_]; [contradiction|]. change (G q * 0 = 0)%R. ring. }
    rewrite E. unfold unit_slot. destruct (slot_eq_dec p p) as [_|C]; [ring|contradiction].
  - rewrite (IH Hin). unfold unit_slot. destruct (slot_eq_dec p q) as [->|_]; [contradiction|ring].
Qed.
(** its entries are the partial derivatives, so there is only one *)
Theorem C110_partials (uniform : bool) (m : pmps R_num) (x : tin R_num) (slim par : bool) (G : slot -> R) (p : slot) :
  is_gradient uniform m x slim par G -> In p (slots m) ->
  exists (eps : R) (l : R -> R), (0 < eps)%R /\
    (forall s, (Rabs s < eps)%R -> loss_of uniform (shift m (fun q => if slot_eq_dec p q then 1%R else 0%R) s) x slim par = Ok (XFin (l s))) /\
    is_derive (V := R_NormedModule) l 0%R (G p).
Proof. intros HG Hin. destruct (HG (unit_slot p)) as (eps & l & He & H & Hd). exists eps, l. rewrite (dot_unit m G p Hin) in Hd. exact (conj He (conj H Hd)). Qed.
Theorem C110_unique (uniform : bool) (m : pmps R_num) (x : tin R_num) (slim par : bool) (G H : slot -> R) (p : slot) :
  is_gradient uniform m x slim par G -> is_gradient uniform m x slim par H -> In p (slots m) -> G p = H p.
Proof.
  intros HG HH Hin. destruct (C110_partials _ _ _ _ _ G p HG Hin) as (e1 & l1 & He1 & H1 & D1). destruct (C110_partials _ _ _ _ _ H p HH Hin) as (e2 & l2 & He2 & H2 & D2).
  apply is_derive_unique in D1. rewrite <- D1. apply is_derive_unique. apply (is_derive_ext_loc l2); [|exact D2].
  assert (Hm : (0 < Rmin e1 e2)%R) by (apply Rmin_glb_lt; assumption). exists (mkposreal _ Hm). intros s Hs.
  assert (Hs' : (Rabs s < Rmin e1 e2)%R). { change (Rabs (s - 0) < Rmin e1 e2)%R in Hs. rewrite Rminus_0_r in Hs. exact Hs. }
  pose proof (Rmin_l e1 e2). pose proof (Rmin_r e1 e2).
  pose proof (H1 s ltac:(lra)) as A. pose proof (H2 s ltac:(lra)) as B. rewrite A in B. injection B as B. symmetry. exact B.
Qed.
(** a step against it decreases the loss, by any fraction c < 1 of the step length times the squared norm of the gradient *)
Lemma slope_bound (l : R -> R) (a c : R) : is_derive (V := R_NormedModule) l 0%R a -> (0 < a)%R -> (c < 1)%R ->
  exists eps, (0 < eps)%R /\ forall s, (0 < s < eps)%R -> (l (- s) <= l 0 - c * s * a)%R.
Proof.
  intros Hd Ha Hc. apply is_derive_Reals in Hd. destruct (Hd ((1 - c) * a)%R ltac:(apply Rmult_lt_0_compat; lra)) as [e He].
  exists (pos e). split; [apply cond_pos|]. intros s [Hs1 Hs2].
  specialize (He (- s)%R ltac:(lra) ltac:(rewrite Rabs_Ropp, Rabs_pos_eq; lra)). rewrite Rplus_0_l in He.
  apply Rabs_def2 in He as [_ He].
  replace ((l (- s) - l 0) / - s - a)%R with ((l 0 - l (- s)) / s - a)%R in He by (field; lra).
  assert (E : (c * a < (l 0 - l (- s)) / s)%R) by lra. apply (Rmult_lt_compat_r s) in E; [|lra].
  replace ((l 0 - l (- s)) / s * s)%R with (l 0 - l (- s))%R in E by (field; lra). lra.
Qed.
Theorem C110_descent (uniform : bool) (m : pmps R_num) (x : tin R_num) (slim par : bool) (G : slot -> R) (c : R) :
  is_gradient uniform m x slim par G -> (exists p, In p (slots m) /\ G p <> 0%R) -> (0 < c < 1)%R ->
  exists (l0 eps : R), loss_of uniform m x slim par = Ok (XFin l0) /\ (0 < dot m G G)%R /\ (0 < eps)%R /\
    forall eta, (0 < eta < eps)%R -> exists l, loss_of uniform (shift m G (- eta)) x slim par = Ok (XFin l) /\
      (l <= l0 - c * eta * dot m G G)%R /\ (l < l0)%R.
Proof.
  intros HG (p & Hin & Hp) Hc. destruct (HG G) as (e1 & l & He1 & H1 & D1).
  assert (Hpos : (0 < dot m G G)%R).
  { clear - Hin Hp. unfold dot. induction (slots m) as [|q L IH]; [destruct Hin|].
    assert (Hnn : forall L' : list slot, (0 <= lsum (K := R_ops) L' (fun p => (G p * G p)%R))%R).
    { induction L' as [|r L' IH']; [change (0 <= 0)%R; lra|]. change (0 <= G r * G r + lsum (K := R_ops) L' (fun p => (G p * G p)%R))%R. pose proof (Rle_0_sqr (G r)). unfold Rsqr in *. lra. }
    change (0 < G q * G q + lsum (K := R_ops) L (fun p => (G p * G p)%R))%R. pose proof (Hnn L). destruct Hin as [->|Hin].
    - pose proof (Rsqr_pos_lt (G p) Hp). unfold Rsqr in *. lra.
    - specialize (IH Hin). pose proof (Rle_0_sqr (G q)). unfold Rsqr in *. lra. }
  destruct (slope_bound l _ c D1 Hpos ltac:(lra)) as (e2 & He2 & H2).
  exists (l 0%R), (Rmin e1 e2). split; [|split; [exact Hpos|split; [apply Rmin_glb_lt; assumption|]]].
  - rewrite <- (H1 0%R) by (rewrite Rabs_R0; exact He1). rewrite shift0. reflexivity.
  - intros eta [Ht1 Ht2]. pose proof (Rmin_l e1 e2). pose proof (Rmin_r e1 e2). exists (l (- eta)%R).
    split; [apply H1; rewrite Rabs_Ropp, Rabs_pos_eq; lra|]. specialize (H2 eta ltac:(lra)). split; [exact H2|].
    assert (0 < c * eta * dot m G G)%R by (apply Rmult_lt_0_compat; [apply Rmult_lt_0_compat; lra|exact Hpos]). lra.
Qed.
(** so the gradient vanishes at parameters no other parameters improve on *)
Theorem C110_minimum (uniform : bool) (m : pmps R_num) (x : tin R_num) (slim par : bool) (G : slot -> R) (l0 : R) :
  is_gradient uniform m x slim par G -> loss_of uniform m x slim par = Ok (XFin l0) ->
  (forall V s l, loss_of uniform (shift m V s) x slim par = Ok (XFin l) -> (l0 <= l)%R) ->
  forall p, In p (slots m) -> G p = 0%R.
Proof.
  intros HG H0 Hmin p Hin. destruct (Req_dec (G p) 0) as [E|E]; [exact E|exfalso].
  destruct (C110_descent uniform m x slim par G (1/2)%R HG ltac:(exists p; split; assumption) ltac:(lra)) as (l0' & eps & E0 & _ & He & H).
  destruct (H (eps / 2)%R ltac:(lra)) as (l & E1 & _ & E2). rewrite H0 in E0. injection E0 as E0. specialize (Hmin _ _ _ E1). lra.
Qed.
(** ** Rescaling the parameters *)
Section Scale.
  Context {X : Type}.
  Variables (D : nat) (v w : nat -> R) (site : nat -> X -> nat -> nat -> R) (xs : list X).
  Lemma amp_zero_l st : amplitude (K := R_num) D (fun _ => 0%R) w st xs = 0%R.
  Proof.
    unfold amplitude, sandwich. apply (bsum_zero R_cring). intros i _. apply (bsum_zero R_cring). intros j _. cbn. ring.
  Qed.
  Lemma amp_zero_r st : amplitude (K := R_num) D v (fun _ => 0%R) st xs = 0%R.
  Proof.
    unfold amplitude, sandwich. apply (bsum_zero R_cring). intros i _. apply (bsum_zero R_cring). intros j _. cbn. ring.
  Qed.
  Lemma amp_zero_site t : t < List.length xs -> amplitude (K := R_num) D v w (fun t' x => if t' =? t then (fun _ _ => 0%R) else site t' x) xs = 0%R.
  Proof.
    intros Ht. transitivity (amplitude (K := R_num) D v w (fun t' x => if t' =? t then (fun i j => (site t' x i j + -1 * site t' x i j)%R) else site t' x) xs).
    - apply (amplitude_ext R_num). intros t' x i j _ _ _ _. destruct (t' =? t); [cbn; ring|reflexivity].
    - transitivity (sandwich (K := R_num) D D v (fun i j => (chain (K := R_num) (sites (K := R_num) D (fun t' x => if t' =? t then site t' x else site t' x) 0 xs) i j + -1 * chain (K := R_num) (sites (K := R_num) D (fun t' x => if t' =? t then site t' x else site t' x) 0 xs) i j)%R) w).
      + unfold amplitude. apply (sandwich_ext R_num); [reflexivity|reflexivity|]. intros i j _ _. exact (chain_lin D site site site (-1) xs 0 t i j Ht).
      + rewrite amp_lin_m. match goal with |- ?x = ?y => change (@eq R x y) end. ring.
  Qed.
  (** the sites (c = 1), or one of the boundary vectors, moved in their own direction *)
  Lemma rule_sites : product_rule D v w (fun _ => 0%R) (fun _ => 0%R) site site xs = (INR (List.length xs) * amplitude (K := R_num) D v w site xs)%R.
  Proof.
    unfold product_rule. rewrite amp_zero_l, amp_zero_r.
    assert (E : forall k, bsum (S := R_ops) k (fun t => amplitude (K := R_num) D v w (fun t' x => if t' =? t then site t' x else site t' x) xs) = (INR k * amplitude (K := R_num) D v w site xs)%R).
    { induction k as [|k IH]; [cbn; ring|]. rewrite S_INR. cbn [bsum]. rewrite IH.
      assert (E : amplitude (K := R_num) D v w (fun t' x => if t' =? k then site t' x else site t' x) xs = amplitude (K := R_num) D v w site xs).
      { apply (amplitude_ext R_num). intros t' x i j _ _ _ _. destruct (t' =? k); reflexivity. }
      rewrite E. generalize (amplitude (K := R_num) D v w site xs). intros a. change (INR k * a + a = (INR k + 1) * a)%R. ring. }
    rewrite E. ring.
  Qed.
  Lemma rule_none : bsum (S := R_ops) (List.length xs) (fun t => amplitude (K := R_num) D v w (fun t' x => if t' =? t then (fun _ _ => 0%R) else site t' x) xs) = 0%R.
  Proof. apply (bsum_zero R_cring). intros t Ht. apply amp_zero_site. exact Ht. Qed.
  Lemma rule_left : product_rule D v w v (fun _ => 0%R) site (fun _ _ _ _ => 0%R) xs = amplitude (K := R_num) D v w site xs.
  Proof. unfold product_rule. rewrite amp_zero_r. cbv beta. rewrite rule_none. ring. Qed.
  Lemma rule_right : product_rule D v w (fun _ => 0%R) w site (fun _ _ _ _ => 0%R) xs = amplitude (K := R_num) D v w site xs.
  Proof. unfold product_rule. rewrite amp_zero_l. cbv beta. rewrite rule_none. ring. Qed.
End Scale.

Definition own_sites (m : pmps R_num) (p : slot) : R :=
  match p with SCore i => get (pm_core R_num m) i | SEdge _ => 0%R | SBias i => match pm_bias R_num m with Some b => get b i | None => 0%R end end.
Definition own_edge (m : pmps R_num) (k : nat) (p : slot) : R :=
  match p with SEdge (k' :: i) => if k' =? k then get (pm_edge R_num m) (k' :: i) else 0%R | _ => 0%R end.
Section Own.
  Variables (uniform : bool) (m : pmps R_num) (n f D : nat).
  Lemma own_letter t k i j : letter_site (K := R_num) (pm_core R_num (dir m (own_sites m))) uniform (pm_bias R_num (dir m (own_sites m))) t k i j = letter_site (K := R_num) (pm_core R_num m) uniform (pm_bias R_num m) t k i j.
  Proof.
    unfold letter_site, entry, dir. cbn [pm_core pm_bias get own_sites]. destruct (pm_bias R_num m) as [b|] eqn:E, uniform; unfold own_sites, bias_at; cbn [get]; try rewrite E; reflexivity.
  Qed.
  Lemma own_vec t ph i j : vec_site (K := R_num) f (pm_core R_num (dir m (own_sites m))) uniform (pm_bias R_num (dir m (own_sites m))) t ph i j = vec_site (K := R_num) f (pm_core R_num m) uniform (pm_bias R_num m) t ph i j.
  Proof.
    unfold vec_site, entry, dir. cbn [pm_core pm_bias get own_sites]. destruct (pm_bias R_num m) as [b|] eqn:E, uniform; unfold own_sites, bias_at; cbn [get]; try rewrite E; reflexivity.
  Qed.
  Lemma edge_letter e t k i j : letter_site (K := R_num) (pm_core R_num (dir m (own_edge m e))) uniform (pm_bias R_num (dir m (own_edge m e))) t k i j = 0%R.
  Proof.
    unfold letter_site, entry, dir. cbn [pm_core pm_bias get own_edge]. destruct (pm_bias R_num m) as [b|] eqn:E, uniform; unfold own_edge, bias_at; cbn; ring.
  Qed.
  Lemma edge_vec e t ph i j : vec_site (K := R_num) f (pm_core R_num (dir m (own_edge m e))) uniform (pm_bias R_num (dir m (own_edge m e))) t ph i j = 0%R.
  Proof.
    unfold vec_site. assert (E : bsum (S := R_ops) f (fun k => (ph k * entry (K := R_num) (pm_core R_num (dir m (own_edge m e))) uniform t k i j)%R) = 0%R).
    { apply (bsum_zero R_cring). intros k _. unfold entry, dir. destruct uniform; cbn; ring. }
    refine (eq_trans (f_equal (fun z : R => (z + _)%R) E) _). unfold dir. cbn [pm_bias]. destruct (pm_bias R_num m); cbn; ring.
  Qed.
  Lemma edge_0 e i : edge_at (K := R_num) (pm_edge R_num (dir m (own_edge m e))) 0 i = if 0 =? e then edge_at (K := R_num) (pm_edge R_num m) 0 i else 0%R.
  Proof. reflexivity. Qed.
  Lemma edge_1 e i : edge_at (K := R_num) (pm_edge R_num (dir m (own_edge m e))) 1 i = if 1 =? e then edge_at (K := R_num) (pm_edge R_num m) 1 i else 0%R.
  Proof. reflexivity. Qed.
  Lemma own_word w : word_slope uniform m (dir m (own_sites m)) D w = (INR (List.length w) * word_amp uniform m D w)%R.
  Proof. unfold word_slope, word_amp. refine (eq_trans _ (rule_sites D _ _ _ w)). apply rule_ext; [reflexivity|reflexivity|]. intros; apply own_letter. Qed.
  Lemma own_row x b : row_slope uniform m (dir m (own_sites m)) n f D x b = (INR n * psi R_num uniform m n f D x b)%R.
  Proof.
    destruct x as [ix|v]; unfold row_slope, psi, row_amp.
    - refine (eq_trans (own_word _) _). unfold row_letters at 1. rewrite map_length, seq_length. reflexivity.
    - refine (eq_trans (rule_ext D _ _ _ _ _ _ _ _ _ (row_vectors (K := R_num) v n b) _ _ _) (eq_trans (rule_sites D _ _ _ (row_vectors (K := R_num) v n b)) _));
        [reflexivity|reflexivity|intros; apply own_vec|]. unfold row_vectors at 1. rewrite map_length, seq_length. reflexivity.
  Qed.
  Lemma edge_word e w : e < 2 -> word_slope uniform m (dir m (own_edge m e)) D w = word_amp uniform m D w.
  Proof.
    intros He. unfold word_slope, word_amp. destruct e as [|[|e]]; [| |lia].
    - refine (eq_trans _ (rule_left D _ _ _ w)). apply rule_ext; [reflexivity|reflexivity|]. intros; apply edge_letter.
    - refine (eq_trans _ (rule_right D _ _ _ w)). apply rule_ext; [reflexivity|reflexivity|]. intros; apply edge_letter.
  Qed.
  Lemma edge_row e x b : e < 2 -> row_slope uniform m (dir m (own_edge m e)) n f D x b = psi R_num uniform m n f D x b.
  Proof.
    intros He. destruct x as [ix|v]; unfold row_slope, psi, row_amp; [apply edge_word, He|]. destruct e as [|[|e]]; [| |lia].
    - refine (eq_trans _ (rule_left D _ _ _ _)). apply rule_ext; [reflexivity|reflexivity|]. intros; apply edge_vec.
    - refine (eq_trans _ (rule_right D _ _ _ _)). apply rule_ext; [reflexivity|reflexivity|]. intros; apply edge_vec.
  Qed.
  Lemma total_zero V c x batch : (0 < Zfun R_num uniform m n f D)%R -> (forall b, b < batch -> psi R_num uniform m n f D x b <> 0%R) ->
    (forall w, In w (words f n) -> word_slope uniform m (dir m V) D w = (c * word_amp uniform m D w)%R) ->
    (forall b, row_slope uniform m (dir m V) n f D x b = (c * psi R_num uniform m n f D x b)%R) -> total uniform m n f D x batch V = 0%R.
  Proof.
    intros HZ Hp Hw Hr. unfold total.
    assert (E : Z_slope uniform m (dir m V) n f D = (2 * c * Zfun R_num uniform m n f D)%R).
    { rewrite Z_words. unfold Z_slope. transitivity (lsum (K := R_ops) (words f n) (fun w => (2 * c * (word_amp uniform m D w * word_amp uniform m D w))%R)).
      - apply (lsum_ext R_cring). intros w Hin. rewrite (Hw w Hin). match goal with |- ?x = ?y => change (@eq R x y) end. ring.
      - generalize (words f n). induction l as [|w l IH]; [change (0 = 2 * c * 0)%R; ring|].
        repeat match goal with |- context [lsum (K := R_ops) (w :: l) ?g] => change (lsum (K := R_ops) (w :: l) g) with (g w + lsum (K := R_ops) l g)%R end.
        cbv beta. rewrite IH. ring. }
    assert (E2 : bsum (S := R_ops) batch (fun b => 2 * row_slope uniform m (dir m V) n f D x b / psi R_num uniform m n f D x b - Z_slope uniform m (dir m V) n f D / Zfun R_num uniform m n f D)%R = 0%R).
    { apply (bsum_zero R_cring). intros b Hb. rewrite Hr, E. match goal with |- ?x = ?y => change (@eq R x y) end. specialize (Hp b Hb). change (s0 (s := R_cring)) with 0%R. field. split; [lra|exact Hp]. }
    rewrite E2. unfold Rdiv. rewrite Rmult_0_l. ring.
  Qed.
End Own.
(** the gradient has no component along the parameters themselves: none along all the site matrices, none along either
    boundary vector (probabilities do not change when these are rescaled) *)
Theorem C110_scale (uniform : bool) (m : pmps R_num) (x : tin R_num) (slim par : bool) (batch n f D : nat) (G : slot -> R) :
  shapes_of R_num uniform m n f D -> pm_emb R_num m = None -> wf_input x batch n f -> 0 < batch -> 0 < n ->
  (slim = true -> pm_bias R_num m = None) ->
  (0 < Zfun R_num uniform m n f D)%R -> (forall b, b < batch -> psi R_num uniform m n f D x b <> 0%R) ->
  is_gradient uniform m x slim par G ->
  dot m G (fun p => match p with SCore i => get (pm_core R_num m) i | SEdge _ => 0%R | SBias i => match pm_bias R_num m with Some b => get b i | None => 0%R end end) = 0%R /\
  forall k, k < 2 -> dot m G (fun p => match p with SEdge (k' :: i) => if k' =? k then get (pm_edge R_num m) (k' :: i) else 0%R | _ => 0%R end) = 0%R.
Proof.
  intros Hsh He Hx Hbt Hn Hsl HZ Hp HG. split.
  - refine (eq_trans (gradient_total uniform m x slim par batch n f D Hsh He Hx Hbt Hn Hsl HZ Hp G HG (own_sites m)) _).
    apply (total_zero uniform m n f D _ (INR n)); [exact HZ|exact Hp| |].
    + intros w Hw. rewrite own_word, (words_length _ _ _ Hw). reflexivity.
    + intros b. apply own_row.
  - intros k Hk. refine (eq_trans (gradient_total uniform m x slim par batch n f D Hsh He Hx Hbt Hn Hsl HZ Hp G HG (own_edge m k)) _).
    apply (total_zero uniform m n f D _ 1%R); [exact HZ|exact Hp| |].
    + intros w Hw. rewrite edge_word by exact Hk. symmetry. apply Rmult_1_l.
    + intros b. rewrite edge_row by exact Hk. symmetry. apply Rmult_1_l.
Qed.

(** *** a concrete case: the one-site model of C106 with all parameters 1, trained on the sequence (0): the loss is ln 2, its
    gradient is -1 at the core of letter 0 and 1 at that of letter 1 *)
Definition one_row : tensor Z := tconst [1; 1] 0%Z.
Example C110_met : shapes_of R_num false gm 1 2 1 /\ wf_input (K := R_num) (TLong one_row) 1 1 2 /\ (0 < Zfun R_num false gm 1 2 1)%R /\
  (forall b, b < 1 -> psi R_num false gm 1 2 1 (TLong one_row) b <> 0%R) /\
  exists G, is_gradient false gm (TLong one_row) false true G /\ (exists p, In p (slots gm) /\ G p <> 0%R) /\
    G (SCore [0; 0; 0; 0]) = (-1)%R.
Proof.
  destruct C106_met as (Hsh & _ & _ & _ & HZ & _).
  assert (Hx : wf_input (K := R_num) (TLong one_row) 1 1 2) by (split; [reflexivity|intros; cbn; lia]).
  assert (HZ' : (0 < Zfun R_num false gm 1 2 1)%R) by (rewrite HZ; lra).
  assert (Hp1 : psi R_num false gm 1 2 1 (TLong one_row) 0 = 1%R).
  { unfold psi, row_amp, row_letters, amplitude, sandwich, chain, sites, mmul, delta, letter_site, entry, edge_at, gm, bias_at, one_row. cbn. ring. }
  assert (Hp : forall b, b < 1 -> psi R_num false gm 1 2 1 (TLong one_row) b <> 0%R).
  { intros b Hb. replace b with 0%nat by lia. rewrite Hp1. exact R1_neq_R0. }
  split; [exact Hsh|]. split; [exact Hx|]. split; [exact HZ'|]. split; [exact Hp|].
  destruct (C110_gradient false gm (TLong one_row) false true 1 1 2 1 Hsh eq_refl Hx ltac:(lia) ltac:(lia) ltac:(discriminate) HZ' Hp) as [G HG].
  exists G. assert (Hin : In (SCore [0; 0; 0; 0]) (slots gm)) by (left; reflexivity).
  assert (E : G (SCore [0; 0; 0; 0]) = (-1)%R).
  { rewrite <- (dot_unit gm G _ Hin). rewrite (gradient_total false gm (TLong one_row) false true 1 1 2 1 Hsh eq_refl Hx ltac:(lia) ltac:(lia) ltac:(discriminate) HZ' Hp G HG).
    assert (S0 : word_slope false gm (dir gm (unit_slot (SCore [0; 0; 0; 0]))) 1 [0] = 1%R).
    { unfold word_slope, product_rule, amplitude, sandwich, chain, sites, mmul, delta, letter_site, entry, edge_at, gm, dir, unit_slot, bias_at; cbn; ring. }
    assert (S1 : word_slope false gm (dir gm (unit_slot (SCore [0; 0; 0; 0]))) 1 [1] = 0%R).
    { unfold word_slope, product_rule, amplitude, sandwich, chain, sites, mmul, delta, letter_site, entry, edge_at, gm, dir, unit_slot, bias_at; cbn; ring. }
    assert (A0 : word_amp false gm 1 [0] = 1%R) by (unfold word_amp, amplitude, sandwich, chain, sites, mmul, delta, letter_site, entry, edge_at, gm, bias_at; cbn; ring).
    unfold total. cbn [bsum]. rewrite Hp1, HZ.
    assert (R0 : row_slope false gm (dir gm (unit_slot (SCore [0; 0; 0; 0]))) 1 2 1 (TLong one_row) 0 = 1%R) by exact S0.
    assert (Zs : Z_slope false gm (dir gm (unit_slot (SCore [0; 0; 0; 0]))) 1 2 1 = 2%R).
    { unfold Z_slope. cbn [words seq flat_map map app]. unfold lsum. cbn [fold_right]. rewrite S0, S1, A0. cbn. ring. }
    rewrite R0, Zs. change (- ((0 + (2 * 1 / 1 - 2 / 2)) / 1) = -1)%R. field. }
  split; [exact HG|]. split; [exists (SCore [0; 0; 0; 0]); split; [exact Hin|rewrite E; lra]|exact E].
Qed.
Print Assumptions C110_gradient.
Print Assumptions C110_partials.
Print Assumptions C110_unique.
Print Assumptions C110_descent.
Print Assumptions C110_minimum.
Print Assumptions C110_scale.
