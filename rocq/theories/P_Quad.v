(** * P_Quad: how far the densities of models with an embedding over an interval are from being normalised in
    the sense of the Riemann integral (C104).  The code normalises by the trapezoid rule on 1000 points. *)
From Coq Require Import Ring_theory Ring Reals Lra Permutation.
From Coquelicot Require Import Coquelicot.
From Verif Require Import Base Scalars Tensor Utils2 MpsBase Embeddings ProbMps Spec MatSpec ModelSpec EmbSpec
  LinAlg Utils2Proofs EinsumProofs MatseqProofs SlimProofs LogNorm ProbProofs EmbProofs P_Prob P_Emb P_EmbExact P_Mlp Quad.

(** ** Specification *)
(** I is the iterated Riemann integral of f over [a,b]^n *)
Fixpoint iter_integral (a b : R) (n : nat) (f : list R -> R) (I : R) : Prop :=
  match n with
  | 0 => I = f []
  | S n' => exists g : R -> R, (forall y, (a <= y <= b)%R -> iter_integral a b n' (fun ys => f (y :: ys)) (g y)) /\ is_RInt g a b I
  end.
(** sum of the absolute values of the amplitudes of all words in the components of the embedding *)
Definition total_amplitude (uniform : bool) (m : pmps R_num) (n d D : nat) : R :=
  lsum (K := R_ops) (words d n) (fun w => Rabs (amplitude D (edge_at (pm_edge R_num m) 0) (edge_at (pm_edge R_num m) 1)
    (letter_site (pm_core R_num m) uniform None) w)).
(** error of the 1000-point trapezoid rule for functions with second derivative at most M *)
Definition cell_error (a b M : R) (N : nat) : R := (M * ((b - a) ^ 3 / (12 * INR (N - 1) ^ 2)))%R.

(** the iterated integral is unique *)
Lemma iter_integral_unique a b n : (a <= b)%R -> forall f f' I J, (forall ys, (forall y, In y ys -> (a <= y <= b)%R) -> f ys = f' ys) ->
  iter_integral a b n f I -> iter_integral a b n f' J -> I = J.
Proof.
  intros Hab. induction n as [|n IH]; intros f f' I J Hff HI HJ; cbn in HI, HJ.
  - rewrite HI, HJ. apply Hff. intros y [].
  - destruct HI as (g & Hg & HI), HJ as (g' & Hg' & HJ).
    rewrite <- (is_RInt_unique _ _ _ _ HJ). symmetry. apply is_RInt_unique. eapply is_RInt_ext; [|exact HI].
    rewrite Rmin_left, Rmax_right by exact Hab. intros y Hy. apply (IH (fun ys => f (y :: ys)) (fun ys => f' (y :: ys))); [|apply Hg; lra|apply Hg'; lra].
    intros ys Hys. apply Hff. intros z [<-|Hz]; [lra|apply Hys, Hz].
Qed.
Lemma iter_integral_ext a b n : forall f f' I, (forall ys, List.length ys = n -> f ys = f' ys) -> iter_integral a b n f I -> iter_integral a b n f' I.
Proof.
  induction n as [|n IH]; intros f f' I H HI; cbn in *; [rewrite HI; apply H; reflexivity|].
  destruct HI as (g & Hg & HI). exists g. split; [|exact HI]. intros y Hy. apply (IH (fun ys => f (y :: ys))); [|apply Hg, Hy]. intros ys Hl. apply H. cbn. lia.
Qed.

(** ** Sums of products *)
Definition pword := list (nat * nat).
Fixpoint pprod {Y} (phi : Y -> nat -> R) (p : pword) (ys : list Y) : R :=
  match p, ys with z :: p', y :: ys' => (phi y (fst z) * phi y (snd z) * pprod phi p' ys')%R | _, _ => 1%R end.
Definition mprod (G : nat -> nat -> R) (p : pword) : R := fold_right (fun z acc => G (fst z) (snd z) * acc)%R 1%R p.
Lemma pprod_cons {Y} (phi : Y -> nat -> R) z p y ys : pprod phi (z :: p) (y :: ys) = (phi y (fst z) * phi y (snd z) * pprod phi p ys)%R.
Proof. reflexivity. Qed.
Lemma mprod_cons G z p : mprod G (z :: p) = (G (fst z) (snd z) * mprod G p)%R.
Proof. reflexivity. Qed.
Definition terms := list (R * pword).
Definition tval {Y} (phi : Y -> nat -> R) (l : terms) (ys : list Y) : R := lsum (K := R_ops) l (fun c => fst c * pprod phi (snd c) ys)%R.
Definition tint (G : nat -> nat -> R) (l : terms) : R := lsum (K := R_ops) l (fun c => fst c * mprod G (snd c))%R.
Definition fits (d n : nat) (l : terms) : Prop := forall c, In c l -> List.length (snd c) = n /\ forall z, In z (snd c) -> fst z < d /\ snd z < d.

Lemma int_lsum {X} (l : list X) (h : X -> R -> R) (J : X -> R) a b :
  (forall c, In c l -> is_RInt (h c) a b (J c)) -> is_RInt (fun y => lsum (K := R_ops) l (fun c => h c y)) a b (lsum (K := R_ops) l J).
Proof.
  induction l as [|c l IH]; intros H; cbn [lsum fold_right].
  - pose proof (is_RInt_const (V := R_NormedModule) a b 0%R) as H0. unfold scal in H0. cbn in H0. unfold mult in H0. cbn in H0. rewrite Rmult_0_r in H0. exact H0.
  - apply (is_RInt_plus (V := R_NormedModule) (h c) (fun y => lsum (K := R_ops) l (fun c => h c y))); [apply H; left; reflexivity|apply IH; intros c' Hc'; apply H; right; exact Hc'].
Qed.
Lemma terms_integral phi G a b d n : (forall k k', k < d -> k' < d -> is_RInt (fun y => phi y k * phi y k')%R a b (G k k')) ->
  forall l, fits d n l -> iter_integral a b n (tval phi l) (tint G l).
Proof.
  intros HG. induction n as [|n IH]; intros l Hl.
  - cbn. unfold tval, tint. apply (lsum_ext R_cring). intros c Hc. destruct (Hl c Hc) as [Hn _]. destruct (snd c); [|discriminate]. reflexivity.
  - cbn. set (strip := fun y : R => map (fun c : R * pword => match snd c with [] => c | z :: r => (fst c * (phi y (fst z) * phi y (snd z)), r)%R end) l).
    exists (fun y => tint G (strip y)). split.
    + intros y Hy. apply iter_integral_ext with (f := tval phi (strip y)).
      * intros ys _. unfold tval, strip. etransitivity; [apply (lsum_map R_cring)|]. apply (lsum_ext R_cring). intros [c p] Hc. cbn [fst snd]. destruct (Hl _ Hc) as [Hn _].
        destruct p as [|z r]; [discriminate Hn|]. cbn [fst snd]. rewrite ?pprod_cons, ?mprod_cons. match goal with |- ?x = ?y => change (@eq R x y) end. ring.
      * apply IH. intros c Hc. apply in_map_iff in Hc as ([c0 p] & <- & Hc). destruct (Hl _ Hc) as [Hn Hz]. cbn [fst snd] in *.
        destruct p as [|z r]; [discriminate Hn|]. cbn [snd] in *. split; [cbn in Hn; lia|]. intros z' Hz'. apply Hz. right. exact Hz'.
    + apply (is_RInt_ext (fun y => lsum (K := R_ops) l (fun c => match snd c with [] => 0 | z :: r => (fst c * mprod G r) * (phi y (fst z) * phi y (snd z)) end)%R)).
      * intros y _. unfold tint, strip. symmetry. etransitivity; [apply (lsum_map R_cring)|]. apply (lsum_ext R_cring). intros [c p] Hc. cbn [fst snd]. destruct (Hl _ Hc) as [Hn _].
        destruct p as [|z r]; [discriminate Hn|]. cbn [fst snd]. rewrite ?pprod_cons, ?mprod_cons. match goal with |- ?x = ?y => change (@eq R x y) end. ring.
      * apply int_lsum. intros [c p] Hc. destruct (Hl _ Hc) as [Hn Hz]. cbn [fst snd] in *. destruct p as [|z r]; [discriminate Hn|].
        replace (c * mprod G (z :: r))%R with (scal (c * mprod G r)%R (G (fst z) (snd z))) by (rewrite mprod_cons; change (c * mprod G r * G (fst z) (snd z) = c * (G (fst z) (snd z) * mprod G r))%R; ring).
        apply (is_RInt_scal (V := R_NormedModule)). apply HG; apply (Hz z); left; reflexivity.
Qed.
(** the same for weighted sums over the points 0..N-1 *)
Lemma terms_words (phi : nat -> nat -> R) wt N d n : forall l, fits d n l ->
  lsum (K := R_ops) (words N n) (fun xs => weight_of wt xs * tval phi l xs)%R = tint (fun k k' => bsum (S := R_ops) N (fun q => wt q * (phi q k * phi q k'))%R) l.
Proof.
  induction n as [|n IH]; intros l Hl.
  - cbn. rewrite Rmult_1_l, Rplus_0_r. unfold tval, tint. apply (lsum_ext R_cring). intros c Hc. destruct (Hl c Hc) as [Hn _]. destruct (snd c); [|discriminate]. reflexivity.
  - set (G := fun k k' => bsum (S := R_ops) N (fun q => wt q * (phi q k * phi q k'))%R) in *.
    set (strip := fun y : nat => map (fun c : R * pword => match snd c with [] => c | z :: r => (fst c * (phi y (fst z) * phi y (snd z)), r)%R end) l).
    transitivity (bsum (S := R_ops) N (fun q => wt q * tint G (strip q))%R).
    + cbn [words]. etransitivity; [apply (lsum_flat_map R_cring)|]. etransitivity; [|apply (lsum_seq R_cring)]. apply (lsum_ext R_cring). intros q _.
      etransitivity; [apply (lsum_map R_cring)|]. rewrite <- IH.
      * etransitivity; [|apply (lsum_mul_l R_cring)]. apply (lsum_ext R_cring). intros xs _.
        transitivity (wt q * (weight_of wt xs * tval phi (strip q) xs))%R; [|reflexivity].
        transitivity (wt q * weight_of wt xs * tval phi l (q :: xs))%R; [reflexivity|]. rewrite Rmult_assoc. f_equal. f_equal.
        unfold tval, strip. symmetry. etransitivity; [apply (lsum_map R_cring)|]. apply (lsum_ext R_cring).
        intros [c p] Hc. cbn [fst snd]. destruct (Hl _ Hc) as [Hn _]. destruct p as [|z r]; [discriminate Hn|]. cbn [fst snd]. rewrite pprod_cons. match goal with |- ?x = ?y => change (@eq R x y) end. ring.
      * intros c Hc. apply in_map_iff in Hc as ([c0 p] & <- & Hc). destruct (Hl _ Hc) as [Hn Hz]. cbn [fst snd] in *.
        destruct p as [|z r]; [discriminate Hn|]. cbn [snd] in *. split; [cbn in Hn; lia|]. intros z' Hz'. apply Hz. right. exact Hz'.
    + transitivity (lsum (K := R_ops) l (fun c => bsum (S := R_ops) N (fun q => wt q * (match snd c with [] => 0 | z :: r => fst c * (phi q (fst z) * phi q (snd z)) * mprod G r end))%R)).
      * etransitivity; [|symmetry; apply (lsum_bsum R_cring)]. apply (bsum_ext (S := R_ops)). intros q _. etransitivity; [|symmetry; apply (lsum_mul_l R_cring)].
        unfold tint, strip. refine (f_equal (fun z : R => (wt q * z)%R) _). etransitivity; [apply (lsum_map R_cring)|]. apply (lsum_ext R_cring). intros [c p] Hc. cbn [fst snd]. destruct (Hl _ Hc) as [Hn _].
        destruct p as [|z r]; [discriminate Hn|]. reflexivity.
      * apply (lsum_ext R_cring). intros [c p] Hc. cbn [fst snd]. destruct (Hl _ Hc) as [Hn _]. cbn [snd] in Hn. destruct p as [|z r]; [discriminate Hn|].
        change (mprod G (z :: r)) with (G (fst z) (snd z) * mprod G r)%R.
        transitivity (c * mprod G r * G (fst z) (snd z))%R; [|match goal with |- ?x = ?y => change (@eq R x y) end; cbn [fst]; ring]. unfold G at 2. etransitivity; [|apply (bsum_mul_l R_cring)]. apply (bsum_ext (S := R_ops)). intros q _.
        change (wt q * (c * (phi q (fst z) * phi q (snd z)) * mprod G r) = c * mprod G r * (wt q * (phi q (fst z) * phi q (snd z))))%R. ring.
Qed.
(** products of nearby numbers *)
Lemma mprod_near G T L eps d p : (forall k k', k < d -> k' < d -> (Rabs (T k k') <= L)%R) -> (forall k k', k < d -> k' < d -> (Rabs (G k k' - T k k') <= eps)%R) ->
  (forall z, In z p -> fst z < d /\ snd z < d) ->
  (Rabs (mprod T p) <= L ^ List.length p /\ Rabs (mprod G p - mprod T p) <= (L + eps) ^ List.length p - L ^ List.length p)%R.
Proof.
  intros HT HG. induction p as [|z p IH]; intros Hp; cbn [mprod fold_right List.length pow].
  - rewrite Rabs_R1, Rminus_eq_0, Rabs_R0. lra.
  - destruct (IH (fun z' Hz' => Hp z' (or_intror Hz'))) as [B1 B2]. destruct (Hp z (or_introl eq_refl)) as [H1 H2].
    specialize (HT _ _ H1 H2). specialize (HG _ _ H1 H2). fold (mprod T p). fold (mprod G p). set (t := T (fst z) (snd z)) in *. set (g := G (fst z) (snd z)) in *.
    set (P := mprod T p) in *. set (Q := mprod G p) in *. pose proof (Rabs_pos t). pose proof (Rabs_pos (g - t)). pose proof (Rabs_pos P). pose proof (Rabs_pos (Q - P)).
    split; [rewrite Rabs_mult; apply Rmult_le_compat; lra|].
    replace (g * Q - t * P)%R with (t * (Q - P) + (g - t) * (P + (Q - P)))%R by ring.
    eapply Rle_trans; [apply Rabs_triang|]. rewrite !Rabs_mult.
    assert (Rabs (P + (Q - P)) <= (L + eps) ^ List.length p)%R by (eapply Rle_trans; [apply Rabs_triang|]; lra).
    assert (Rabs t * Rabs (Q - P) <= L * ((L + eps) ^ List.length p - L ^ List.length p))%R by (apply Rmult_le_compat; lra).
    assert (Rabs (g - t) * Rabs (P + (Q - P)) <= eps * (L + eps) ^ List.length p)%R by (apply Rmult_le_compat; try lra; apply Rabs_pos).
    lra.
Qed.
Lemma tint_near G T L eps d n l : (forall k k', k < d -> k' < d -> (Rabs (T k k') <= L)%R) -> (forall k k', k < d -> k' < d -> (Rabs (G k k' - T k k') <= eps)%R) ->
  fits d n l -> (Rabs (tint G l - tint T l) <= lsum (K := R_ops) l (fun c => Rabs (fst c)) * ((L + eps) ^ n - L ^ n))%R.
Proof.
  intros HT HG. induction l as [|c l IH]; intros Hl.
  - unfold tint. cbn. rewrite Rminus_eq_0, Rabs_R0. lra.
  - change (Rabs ((fst c * mprod G (snd c) + tint G l) - (fst c * mprod T (snd c) + tint T l)) <= (Rabs (fst c) + lsum (K := R_ops) l (fun c => Rabs (fst c))) * ((L + eps) ^ n - L ^ n))%R.
    specialize (IH (fun c' Hc' => Hl c' (or_intror Hc'))). destruct (Hl c (or_introl eq_refl)) as [Hn Hz].
    destruct (mprod_near G T L eps d (snd c) HT HG Hz) as [_ B]. rewrite Hn in B.
    replace (fst c * mprod G (snd c) + tint G l - (fst c * mprod T (snd c) + tint T l))%R with (fst c * (mprod G (snd c) - mprod T (snd c)) + (tint G l - tint T l))%R by ring.
    eapply Rle_trans; [apply Rabs_triang|]. rewrite Rabs_mult. rewrite Rmult_plus_distr_r. apply Rplus_le_compat; [|exact IH]. apply Rmult_le_compat_l; [apply Rabs_pos|exact B].
Qed.

(** ** The amplitude is a sum over words of components *)
Section Expand.
  Variable K : numfield.
  Add Ring KrQ : (rth K).
  Fixpoint wprod {Y} (phi : Y -> nat -> K) (w : list nat) (ys : list Y) : K :=
    match w, ys with k :: w', y :: ys' => smul (phi y k) (wprod phi w' ys') | _, _ => s1 end.
  Lemma chain_words {Y} (phi : Y -> nat -> K) (site : nat -> nat -> mat K) d D ys : forall t i j,
    chain (K := K) (sites D (fun t y i j => bsum d (fun k => smul (phi y k) (site t k i j))) t ys) i j =
    lsum (K := K) (words d (List.length ys)) (fun w => smul (wprod phi w ys) (chain (K := K) (sites D site t w) i j)).
  Proof.
    induction ys as [|y ys IH]; intros t i j; cbn [sites List.length words].
    - cbn. ring.
    - rewrite (chain_cons K). unfold mmul. rewrite (lsum_flat_map K).
      transitivity (bsum d (fun k => bsum D (fun q => smul (smul (phi y k) (site t k i q))
         (chain (K := K) (sites D (fun t y i j => bsum d (fun k => smul (phi y k) (site t k i j))) (Datatypes.S t) ys) q j)))).
      + rewrite <- (bsum_swap). apply bsum_ext. intros q _. symmetry. apply (bsum_mul_r K).
      + rewrite <- (lsum_seq K). apply (lsum_ext K). intros k _. rewrite (lsum_map K).
        transitivity (bsum D (fun q => lsum (K := K) (words d (List.length ys)) (fun w => smul (wprod phi (k :: w) (y :: ys)) (smul (site t k i q) (chain (K := K) (sites D site (Datatypes.S t) w) q j))))).
        * apply bsum_ext. intros q _. rewrite IH. rewrite <- (lsum_mul_l K). apply (lsum_ext K). intros w _. cbn [wprod]. ring.
        * rewrite <- (lsum_bsum K). apply (lsum_ext K). intros w _. cbn [sites]. rewrite (chain_cons K). unfold mmul. apply (bsum_mul_l K).
  Qed.
  Lemma amplitude_words {Y} (phi : Y -> nat -> K) (site : nat -> nat -> mat K) v w d D ys :
    amplitude D v w (fun t y i j => bsum d (fun k => smul (phi y k) (site t k i j))) ys =
    lsum (K := K) (words d (List.length ys)) (fun u => smul (wprod phi u ys) (amplitude D v w site u)).
  Proof.
    unfold amplitude, sandwich.
    transitivity (bsum D (fun i => bsum D (fun j => lsum (K := K) (words d (List.length ys)) (fun u => smul (wprod phi u ys) (smul (v i) (smul (chain (K := K) (sites D site 0 u) i j) (w j))))))).
    - apply bsum_ext. intros i _. apply bsum_ext. intros j _. rewrite chain_words. rewrite <- (lsum_mul_r K), <- (lsum_mul_l K). apply (lsum_ext K). intros u _. ring.
    - transitivity (bsum D (fun i => lsum (K := K) (words d (List.length ys)) (fun u => bsum D (fun j => smul (wprod phi u ys) (smul (v i) (smul (chain (K := K) (sites D site 0 u) i j) (w j))))))).
      + apply bsum_ext. intros i _. symmetry. apply (lsum_bsum K).
      + rewrite <- (lsum_bsum K). apply (lsum_ext K). intros u _. rewrite <- (bsum_mul_l K). apply bsum_ext. intros i _. apply (bsum_mul_l K).
  Qed.
End Expand.

(** ** The Born weight of a real model as a sum of products *)
Definition born_terms (A : list nat -> R) (d n : nat) : terms :=
  flat_map (fun w => map (fun w' => (A w * A w', combine w w')%R) (words d n)) (words d n).
Lemma born_fits A d n : fits d n (born_terms A d n).
Proof.
  intros c Hc. apply in_flat_map in Hc as (w & Hw & Hc). apply in_map_iff in Hc as (w' & <- & Hw'). cbn [snd].
  pose proof (words_length d n w Hw). pose proof (words_length d n w' Hw'). split; [rewrite combine_length; lia|].
  intros [k k'] Hz. cbn [fst snd]. split; [apply (words_letters d n w Hw), (in_combine_l _ _ _ _ Hz)|apply (words_letters d n w' Hw'), (in_combine_r _ _ _ _ Hz)].
Qed.
Lemma born_abs A d n : lsum (K := R_ops) (born_terms A d n) (fun c => Rabs (fst c)) = (lsum (K := R_ops) (words d n) (fun w => Rabs (A w)) * lsum (K := R_ops) (words d n) (fun w => Rabs (A w)))%R.
Proof.
  unfold born_terms. etransitivity; [apply (lsum_flat_map R_cring)|]. etransitivity; [|apply (lsum_mul_r R_cring)]. apply (lsum_ext R_cring). intros w _.
  etransitivity; [apply (lsum_map R_cring)|]. etransitivity; [|apply (lsum_mul_l R_cring)]. apply (lsum_ext R_cring). intros w' _. apply Rabs_mult.
Qed.
Lemma pprod_combine {Y} (phi : Y -> nat -> R) w w' ys : List.length w = List.length ys -> List.length w' = List.length ys ->
  pprod phi (combine w w') ys = (wprod R_num phi w ys * wprod R_num phi w' ys)%R.
Proof.
  revert w w'. induction ys as [|y ys IH]; intros [|k w] [|k' w'] H H'; try discriminate; cbn [combine pprod wprod].
  - cbn. ring.
  - rewrite IH by (cbn in *; lia). cbn [fst snd].
    change (phi y k * phi y k' * (wprod R_num phi w ys * wprod R_num phi w' ys) = phi y k * wprod R_num phi w ys * (phi y k' * wprod R_num phi w' ys))%R. ring.
Qed.
Lemma born_tval {Y} (phi : Y -> nat -> R) A d n ys : List.length ys = n ->
  (lsum (K := R_ops) (words d n) (fun w => wprod R_num phi w ys * A w) * lsum (K := R_ops) (words d n) (fun w => wprod R_num phi w ys * A w))%R = tval phi (born_terms A d n) ys.
Proof.
  intros Hl. unfold tval, born_terms. symmetry. etransitivity; [apply (lsum_flat_map R_cring)|]. etransitivity; [|apply (lsum_mul_r R_cring)]. apply (lsum_ext R_cring). intros w Hw.
  etransitivity; [apply (lsum_map R_cring)|]. etransitivity; [|apply (lsum_mul_l R_cring)]. apply (lsum_ext R_cring). intros w' Hw'. cbn [fst snd].
  rewrite pprod_combine by (rewrite Hl; eapply words_length; eassumption).
  change (A w * A w' * (wprod R_num phi w ys * wprod R_num phi w' ys) = wprod R_num phi w ys * A w * (wprod R_num phi w' ys * A w'))%R. ring.
Qed.

(** ** C104 *)
(** what a stored lambda matrix stands for: a number c for c times the identity, a vector for a diagonal matrix *)
Definition stands_for (t : tensor (xnum R_num)) (d : nat) (L : nat -> nat -> R) : Prop :=
  (exists c, shp t = [] /\ get t [] = Fin c /\ forall k k', k < d -> k' < d -> L k k' = if k =? k' then c else 0%R) \/
  (shp t = [d] /\ forall k k', k < d -> k' < d -> if k =? k' then get t [k] = Fin (L k k') else L k k' = 0%R) \/
  (shp t = [d; d] /\ forall k k', k < d -> k' < d -> get t [k; k'] = Fin (L k k')).
Lemma gram_real N a b (phi : R -> nat -> R) k k' : gram_matrix (K := R_num) N (trap_weight N (grid a b N)) (fun q => phi (grid a b N q)) k k' = trap_sum a b N (fun y => phi y k * phi y k')%R.
Proof. reflexivity. Qed.

Definition diag_of_weights (lam : nat -> R) (k k' : nat) : R := (lam k * (if k =? k' then 1 else 0))%R.
Lemma stands_ok t d L : lamb_ok R_num (Some t) d L -> stands_for t d L.
Proof.
  intros [(c & H1 & H2 & H3)|[(c & H1 & H2 & H3)|H]]; [left|right; left|right; right; exact H].
  - exists c. split; [exact H1|]. split; [exact H2|]. intros k k' Hk Hk'. rewrite H3 by assumption. unfold delta. destruct (k =? k'); cbn; lra.
  - split; [exact H1|]. intros k k' Hk Hk'. rewrite H3 by assumption. unfold delta. destruct (Nat.eqb_spec k k') as [<-|_]; [|cbn; lra].
    rewrite H2 by exact Hk. f_equal. cbn. lra.
Qed.
Lemma used_near d N wt (pts : nat -> nat -> R) lam : invisible R_num d (gram_matrix (K := R_num) N wt pts) -> used_weights R_num d (component_weight R_num N wt pts) lam ->
  forall k k', k < d -> k' < d -> (Rabs (diag_of_weights lam k k' - gram_matrix (K := R_num) N wt pts k k') <= / 100000000 + / 100000 * Rabs (gram_matrix (K := R_num) N wt pts k k'))%R.
Proof.
  intros Hinv Hlam k k' Hk Hk'. unfold diag_of_weights. destruct (Nat.eqb_spec k k') as [<-|Hne].
  - rewrite Rmult_1_r. pose proof (gram_diag R_num N wt pts k) as Hg. cbn [nofR R_num] in Hg.
    change (gram_matrix (K := R_num) N wt pts k k) with (gram_matrix (K := R_num) N wt pts k k : R) in *. 
    destruct Hlam as [[H E]|[_ E]]; rewrite E.
    + rewrite Hg. exact (H k Hk).
    + rewrite Hg. match goal with |- (Rabs ?x <= _)%R => replace x with 0%R by (cbn; lra) end. rewrite Rabs_R0. match goal with |- (_ <= _ + _ * Rabs ?x)%R => pose proof (Rabs_pos x) end. lra.
  - rewrite Rmult_0_r. exact (Hinv k k' Hk Hk' Hne).
Qed.
(** C104: the matrix that make_lambda stores for an embedding over [a,b], for every number of points *)
Theorem C104_lambda (f : efun R_num) a b d phi N M :
  (a < b)%R -> 1 < N -> 0 < d -> embeds_interval (K := R_num) f a b d phi ->
  (forall k k', k < d -> k' < d -> smooth a b M (fun y => phi y k * phi y k')%R) ->
  exists t L, make_lambda R_num N f (mkDom true b (Some a)) = Ok (t, d) /\ stands_for t d L /\
    forall k k', k < d -> k' < d -> exists I, is_RInt (fun y => phi y k * phi y k')%R a b I /\
      (Rabs (L k k' - I) <= cell_error a b M N + / 100000000 + / 100000 * (Rabs I + cell_error a b M N))%R.
Proof.
  intros Hab HN Hd Hf HM. destruct (raw_lambda_interval R_num f a b d phi N Hab HN Hf) as (raw & Er & Hrs & Hrg).
  exists (simplify_lamb R_num raw).
  assert (HI : forall k k', k < d -> k' < d -> exists I, is_RInt (fun y => phi y k * phi y k')%R a b I /\ (Rabs (I - get raw [k; k']) <= cell_error a b M N)%R).
  { intros k k' Hk Hk'. destruct (smooth_integrable a b M _ ltac:(lra) (HM k k' Hk Hk')) as (I & HI). exists I. split; [exact HI|].
    rewrite Hrg by assumption. rewrite gram_real. apply (composite a b N M _ I Hab HN (HM k k' Hk Hk') HI). }
  assert (Hnear : forall L : nat -> nat -> R, (forall k k', k < d -> k' < d -> (Rabs (L k k' - get raw [k; k']) <= / 100000000 + / 100000 * Rabs (get raw [k; k']))%R) ->
    forall k k', k < d -> k' < d -> exists I, is_RInt (fun y => phi y k * phi y k')%R a b I /\
      (Rabs (L k k' - I) <= cell_error a b M N + / 100000000 + / 100000 * (Rabs I + cell_error a b M N))%R).
  { intros L HL k k' Hk Hk'. destruct (HI k k' Hk Hk') as (I & HI1 & HI2). exists I. split; [exact HI1|]. specialize (HL k k' Hk Hk').
    set (r := get raw [k; k']) in *. change R in (type of r).
    assert (Rabs r <= Rabs I + cell_error a b M N)%R.
    { replace (Rabs r) with (Rabs (I + (r - I)))%R by (f_equal; lra). eapply Rle_trans; [apply Rabs_triang|]. rewrite (Rabs_minus_sym r I). lra. }
    replace (L k k' - I)%R with ((L k k' - r) + (r - I))%R by lra. eapply Rle_trans; [apply Rabs_triang|]. rewrite (Rabs_minus_sym r I). lra. }
  unfold make_lambda. rewrite Er. cbn [rbind]. unfold ndim. rewrite Hrs. cbn [List.length Nat.eqb assert_ rbind nth]. rewrite Nat.eqb_refl. cbn [assert_ rbind].
  set (wt := trap_weight N (grid a b N)) in *. set (pts := fun q => phi (grid a b N q)) in *.
  destruct (simplify_exact R_num raw d N wt pts Hd Hrs Hrg) as [[_ Hok]|[Hinv (lam & Hlam & Hok)]].
  - exists (gram_matrix (K := R_num) N wt pts). split; [reflexivity|]. split; [apply stands_ok, Hok|].
    apply Hnear. intros k k' Hk Hk'. rewrite Hrg by assumption. rewrite Rminus_eq_0, Rabs_R0. pose proof (Rabs_pos (gram_matrix (K := R_num) N wt pts k k')). lra.
  - exists (diag_of_weights lam). split; [reflexivity|]. split; [apply stands_ok, Hok|].
    apply Hnear. intros k k' Hk Hk'. rewrite Hrg by assumption. apply (used_near d N wt pts lam Hinv Hlam); assumption.
Qed.
Lemma trap_sum_le a b N f B : (a < b)%R -> 1 < N -> (forall y, (a <= y <= b)%R -> (Rabs (f y) <= B)%R) -> (Rabs (trap_sum a b N f) <= (b - a) * B)%R.
Proof.
  intros Hab HN Hf.
  assert (H1 : trap_sum a b N (fun _ => 1%R) = (b - a)%R).
  { assert (Hs : smooth a b 0 (fun _ => 1%R)).
    { exists (fun _ => 0%R), (fun _ => 0%R). intros t _. split; [apply (is_derive_const (V := R_NormedModule))|]. split; [apply (is_derive_const (V := R_NormedModule))|].
      split; [apply continuous_const|]. rewrite Rabs_R0. lra. }
    pose proof (is_RInt_const (V := R_NormedModule) a b 1%R) as HI. pose proof (composite a b N 0 _ _ Hab HN Hs HI) as H. rewrite Rmult_0_l in H.
    match type of H with (Rabs ?x <= 0)%R => assert (E : x = 0%R) end.
    { apply Rabs_eq_0. apply Rle_antisym; [exact H|apply Rabs_pos]. }
    change ((b - a) * 1 - trap_sum a b N (fun _ => 1))%R with (scal (b - a)%R 1%R - trap_sum a b N (fun _ => 1))%R in E. change (scal (b - a)%R 1%R) with ((b - a) * 1)%R in E. lra. }
  rewrite <- H1. unfold trap_sum.
  assert (G : forall j, j <= N -> (Rabs (bsum (S := R_ops) j (fun k => trap_weight N (grid a b N) k * f (grid a b N k))) <= bsum (S := R_ops) j (fun k => trap_weight N (grid a b N) k * 1) * B)%R).
  { induction j as [|j IH]; intros Hj; [change (Rabs 0 <= 0 * B)%R; rewrite Rabs_R0, Rmult_0_l; apply Rle_refl|]. cbn [bsum sadd R_ops].
    eapply Rle_trans; [apply Rabs_triang|]. rewrite Rmult_plus_distr_r. apply Rplus_le_compat; [apply IH; lia|]. cbv beta.
    pose proof (trap_weight_nonneg a b N j Hab HN) as Hw. rewrite Rabs_mult, (Rabs_right (trap_weight N (grid a b N) j)) by lra. rewrite Rmult_1_r.
    apply Rmult_le_compat_l; [exact Hw|]. apply Hf. apply grid_in; [exact Hab|exact HN|lia]. }
  apply G. lia.
Qed.
Lemma used_bounded d N wt (pts : nat -> nat -> R) lam L : (forall k k', k < d -> k' < d -> (Rabs (gram_matrix (K := R_num) N wt pts k k') <= L)%R) -> (0 <= L)%R ->
  used_weights R_num d (component_weight R_num N wt pts) lam -> forall k k', k < d -> k' < d -> (Rabs (diag_of_weights lam k k') <= L)%R.
Proof.
  intros HL H0 Hlam k k' Hk Hk'.
  assert (Hg : forall q, q < d -> (Rabs (component_weight R_num N wt pts q) <= L)%R).
  { intros q Hq. pose proof (gram_diag R_num N wt pts q) as E. cbn [nofR R_num] in E. rewrite <- E. apply HL; exact Hq. }
  unfold diag_of_weights. destruct (k =? k'); [rewrite Rmult_1_r|rewrite Rmult_0_r, Rabs_R0; exact H0].
  destruct Hlam as [[_ E]|[_ E]]; rewrite E; [|apply Hg, Hk].
  unfold mean. assert (Hd : (0 < INR d)%R) by (apply lt_0_INR; lia).
  assert (G : forall j, j <= d -> (Rabs (bsum (S := R_ops) j (component_weight R_num N wt pts)) <= INR j * L)%R).
  { induction j as [|j IH]; intros Hj; [change (Rabs 0 <= 0 * L)%R; rewrite Rabs_R0, Rmult_0_l; apply Rle_refl|]. cbn [bsum sadd R_ops]. rewrite S_INR. eapply Rle_trans; [apply Rabs_triang|].
    specialize (IH ltac:(lia)). specialize (Hg j ltac:(lia)). lra. }
  unfold Rdiv. rewrite Rabs_mult, (Rabs_right (/ INR d)) by (left; apply Rinv_0_lt_compat, Hd).
  specialize (G d (le_n _)). apply (Rmult_le_reg_r (INR d)); [exact Hd|]. rewrite Rmult_assoc, Rinv_l, Rmult_1_r by lra. rewrite (Rmult_comm L). exact G.
Qed.

(** C104: the true integral over [a,b]^n of the density that forward returns *)
Theorem C104_integral (uniform : bool) (m : pmps R_num) e f a b d (phi : R -> nat -> R) (x : tensor R) (slim par : bool) (batch n D : nat) (T : tensor xreal) (M B : R) :
  (a < b)%R -> shapes_of R_num uniform m n d D -> pm_emb R_num m = Some e -> built R_num e f (mkDom true b (Some a)) ->
  embeds_interval (K := R_num) f a b d phi -> pm_bias R_num m = None -> 0 < n ->
  shp x = [batch; n] -> (forall p t, p < batch -> t < n -> (a <= get x [p; t] <= b)%R) ->
  snd (fwd R_num uniform m (TFloat (tmap (nofR R_num) x)) slim par) = Ok T ->
  (forall k k', k < d -> k' < d -> smooth a b M (fun y => phi y k * phi y k')%R) ->
  (forall k k' y, k < d -> k' < d -> (a <= y <= b)%R -> (Rabs (phi y k * phi y k') <= B)%R) ->
  let born := fun ys => abs2 (amplitude D (edge_at (pm_edge R_num m) 0) (edge_at (pm_edge R_num m) 1)
                          (fun t y => vec_site d (pm_core R_num m) uniform None t (phi y)) ys) in
  let A := total_amplitude uniform m n d D in
  let L := ((b - a) * B)%R in
  exists Zn I, (0 < Zn)%R /\
    (forall p, p < batch -> is_log (get T [p]) (born (map (fun t => get x [p; t]) (seq 0 n)) / Zn)) /\
    iter_integral a b n (fun ys => (born ys / Zn)%R) I /\
    (Rabs (I - 1) <= A * A * ((L + (cell_error a b M 1000 + / 100000000 + / 100000 * L)) ^ n - L ^ n) / Zn)%R /\
    (** without the tolerance, if an off-diagonal entry of the lambda matrix is visible above it *)
    (~ invisible R_num d (fun k k' => trap_sum a b 1000 (fun y => phi y k * phi y k')%R) ->
     (Rabs (I - 1) <= A * A * ((L + cell_error a b M 1000) ^ n - L ^ n) / Zn)%R).
Proof.
  intros Hab Hsh He Hb Hf Hbias Hn Hs Hr E HM HB born A L.
  destruct (C17_exact_total R_num uniform m e f a b d phi x slim par batch n D T Hab Hsh He Hb Hf Hbias Hn Hs Hr E) as (Zn & HZ & Hv & HT).
  assert (HN : 1 < 1000) by (apply Nat.ltb_lt; reflexivity). revert HT HN. generalize 1000 as N. intros N HT HN.
  set (wt := trap_weight N (grid a b N)) in *. set (pts := fun q => phi (grid a b N q)) in *.
  set (Aw := fun w => amplitude D (edge_at (pm_edge R_num m) 0) (edge_at (pm_edge R_num m) 1) (letter_site (pm_core R_num m) uniform None) w).
  set (l := born_terms Aw d n).
  assert (Hborn : forall {Y} (ph : Y -> nat -> R) ys, List.length ys = n -> abs2 (K := R_num) (amplitude D (edge_at (pm_edge R_num m) 0) (edge_at (pm_edge R_num m) 1)
      (fun t y => vec_site d (pm_core R_num m) uniform None t (ph y)) ys) = tval ph l ys).
  { intros Y ph ys Hl. unfold l. rewrite <- (born_tval ph Aw d n ys Hl).
    assert (Ea : amplitude D (edge_at (pm_edge R_num m) 0) (edge_at (pm_edge R_num m) 1) (fun t y => vec_site d (pm_core R_num m) uniform None t (ph y)) ys =
                 lsum (K := R_ops) (words d n) (fun w => wprod R_num ph w ys * Aw w)%R).
    { rewrite <- Hl. etransitivity; [|apply (amplitude_words R_num ph (letter_site (pm_core R_num m) uniform None))]. apply amplitude_ext. intros t y i j _ _ _ _. unfold vec_site, letter_site, bias_at.
      etransitivity; [apply Rplus_0_r|]. apply bsum_ext. intros k _. f_equal. symmetry. apply Rplus_0_r. }
    rewrite Ea. unfold abs2. cbn [nabs R_num]. match goal with |- (Rabs ?v * Rabs ?v)%R = _ => generalize v end. intros v. rewrite <- Rabs_mult. apply Rabs_right. nra. }
  assert (HG : exists G : nat -> nat -> R, forall k k', k < d -> k' < d -> is_RInt (fun y => phi y k * phi y k')%R a b (G k k') /\ (Rabs (G k k' - trap_sum a b N (fun y => phi y k * phi y k')) <= cell_error a b M N)%R).
  { exists (fun k k' => RInt (fun y => phi y k * phi y k')%R a b). intros k k' Hk Hk'. pose proof (smooth_integrable a b M _ ltac:(lra) (HM k k' Hk Hk')) as HI. apply (RInt_correct (V := R_CompleteNormedModule)) in HI.
    split; [exact HI|]. apply composite; [exact Hab|exact HN|apply HM; assumption|exact HI]. }
  destruct HG as (G & HG).
  exists Zn, (tint G l / Zn)%R. split; [exact HZ|]. split; [exact Hv|].
  split.
  { apply iter_integral_ext with (f := fun ys => (/ Zn * tval phi l ys)%R).
    - intros ys Hl. rewrite (Hborn R phi ys Hl : born ys = _). unfold Rdiv. apply Rmult_comm.
    - replace (tint G l / Zn)%R with (tint G (map (fun c => (/ Zn * fst c, snd c)%R) l)).
      + apply iter_integral_ext with (f := tval phi (map (fun c => (/ Zn * fst c, snd c)%R) l)).
        * intros ys _. unfold tval. etransitivity; [apply (lsum_map R_cring)|]. etransitivity; [|apply (lsum_mul_l R_cring)]. apply (lsum_ext R_cring). intros c _. cbn [fst snd]. apply Rmult_assoc.
        * apply (terms_integral phi G a b d n (fun k k' Hk Hk' => proj1 (HG k k' Hk Hk'))). intros c Hc. apply in_map_iff in Hc as (c0 & <- & Hc). apply (born_fits Aw d n c0 Hc).
      + unfold Rdiv. rewrite Rmult_comm. unfold tint. etransitivity; [apply (lsum_map R_cring)|]. etransitivity; [|apply (lsum_mul_l R_cring)]. apply (lsum_ext R_cring). intros c _. cbn [fst snd]. apply Rmult_assoc. }
  assert (HL0 : (0 <= L)%R).
  { destruct (shapes_get R_num uniform m n d D Hsh) as (Hd & _). apply Rmult_le_pos; [lra|]. eapply Rle_trans; [apply Rabs_pos|apply (HB 0 0 a Hd Hd); lra]. }
  assert (HgL : forall k k', k < d -> k' < d -> (Rabs (gram_matrix (K := R_num) N wt pts k k') <= L)%R).
  { intros k k' Hk Hk'. unfold wt, pts. rewrite gram_real. apply trap_sum_le; [exact Hab|exact HN|]. intros y Hy. apply HB; assumption. }
  assert (Hfin : forall (U : nat -> nat -> R) eps, (forall k k', k < d -> k' < d -> (Rabs (U k k') <= L)%R) -> (forall k k', k < d -> k' < d -> (Rabs (G k k' - U k k') <= eps)%R) ->
     Zn = tint U l -> (Rabs (tint G l / Zn - 1) <= A * A * ((L + eps) ^ n - L ^ n) / Zn)%R).
  { intros U eps H1 H2 H3. replace (tint G l / Zn - 1)%R with ((tint G l - tint U l) / Zn)%R by (rewrite H3; field; rewrite <- H3; lra).
    unfold Rdiv. rewrite Rabs_mult, (Rabs_right (/ Zn)) by (left; apply Rinv_0_lt_compat, HZ). apply Rmult_le_compat_r; [left; apply Rinv_0_lt_compat, HZ|].
    eapply Rle_trans; [apply (tint_near G U L eps d n l H1 H2 (born_fits Aw d n))|]. unfold l. rewrite born_abs. apply Rle_refl. }
  assert (HGe : forall k k', k < d -> k' < d -> (Rabs (G k k' - gram_matrix (K := R_num) N wt pts k k') <= cell_error a b M N)%R).
  { intros k k' Hk Hk'. unfold wt, pts. rewrite gram_real. apply HG; assumption. }
  assert (Hmono : (forall u v, 0 <= u -> u <= v -> A * A * ((L + u) ^ n - L ^ n) / Zn <= A * A * ((L + v) ^ n - L ^ n) / Zn)%R).
  { intros u v Hu Huv. apply Rmult_le_compat_r; [left; apply Rinv_0_lt_compat, HZ|]. apply Rmult_le_compat_l; [nra|]. apply Rplus_le_compat_r. apply pow_incr. lra. }
  destruct HT as [[Hvis HT]|[Hinv (_ & lam & Hlam & HZl)]].
  - assert (EZ : Zn = tint (gram_matrix (K := R_num) N wt pts) l).
    { rewrite iter_trapezoid_sum in HT. fold wt in HT.
      assert (ET : (tint (gram_matrix (K := R_num) N wt pts) l * / Zn)%R = 1%R).
      { rewrite <- HT. pose proof (terms_words pts wt N d n l (born_fits Aw d n)) as EW. change (tint (gram_matrix (K := R_num) N wt pts) l) with (tint (fun k k' => bsum (S := R_ops) N (fun q => wt q * (pts q k * pts q k'))%R) l).
        rewrite <- EW. etransitivity; [symmetry; apply (lsum_mul_r R_cring)|]. apply (lsum_ext R_cring). intros ks Hks.
        change (weight_of wt ks * tval pts l ks * / Zn = weight_of wt ks * (born (map (grid a b N) ks) / Zn))%R.
        assert (Eb : born (map (grid a b N) ks) = tval pts l ks).
        { rewrite <- (Hborn nat pts ks (words_length N n ks Hks)). unfold born. f_equal. unfold amplitude. f_equal. f_equal. generalize 0 as s. clear. induction ks as [|k ks IH]; intros s; [reflexivity|].
          cbn [map sites]. rewrite IH. reflexivity. }
        rewrite Eb. field. lra. }
      apply (Rmult_eq_reg_r (/ Zn)); [|apply Rinv_neq_0_compat; lra]. rewrite ET. apply Rinv_r. lra. }
    pose proof (Hfin _ _ HgL HGe EZ) as Hb1. split; [|intros _; exact Hb1]. eapply Rle_trans; [exact Hb1|]. apply Hmono; [|lra].
    destruct (shapes_get R_num uniform m n d D Hsh) as (Hd & _). eapply Rle_trans; [apply Rabs_pos|exact (HGe 0 0 Hd Hd)].
  - split; [|intros Hni; exfalso; apply Hni; exact Hinv].
    assert (EZ : Zn = tint (diag_of_weights lam) l).
    { rewrite HZl. rewrite <- emb_Z_delta. rewrite emb_Z_sum by (left; exact Hbias). unfold emb_sum.
      transitivity (lsum (K := R_ops) (words d n) (fun xs => weight_of lam xs * tval (delta (K := R_num)) l xs)%R).
      - apply (lsum_ext R_cring). intros xs Hxs. f_equal. rewrite <- (Hborn nat (delta (K := R_num)) xs (words_length d n xs Hxs)). unfold emb_psi. rewrite Hbias. reflexivity.
      - rewrite (terms_words (delta (K := R_num)) lam d d n l (born_fits Aw d n)). unfold tint. apply (lsum_ext R_cring). intros c Hc. destruct (born_fits Aw d n c Hc) as [_ Hz].
        f_equal. clear -Hz. induction (snd c) as [|z p IH]; [reflexivity|]. rewrite !mprod_cons. rewrite IH by (intros z' Hz'; apply Hz; right; exact Hz'). f_equal.
        destruct (Hz z (or_introl eq_refl)) as [Hz1 Hz2]. unfold diag_of_weights.
        transitivity (bsum (S := R_ops) d (fun q => delta (K := R_num) (fst z) q * (lam q * delta (K := R_num) q (snd z)))%R).
        + apply (bsum_ext (S := R_ops)). intros q _. unfold delta. rewrite (Nat.eqb_sym (fst z) q). cbn. ring.
        + etransitivity; [apply (bsum_delta_l R_num d (fst z) (fun q => lam q * delta (K := R_num) q (snd z))%R Hz1)|]. reflexivity. }
    apply (Hfin (diag_of_weights lam)); [apply (used_bounded d N wt pts lam L HgL HL0 Hlam)| |exact EZ].
    intros k k' Hk Hk'. pose proof (used_near d N wt pts lam Hinv Hlam k k' Hk Hk') as H1. specialize (HGe k k' Hk Hk'). specialize (HgL k k' Hk Hk').
    set (u := diag_of_weights lam k k') in *. set (g := gram_matrix (K := R_num) N wt pts k k') in *.
    replace (G k k' - u)%R with ((G k k' - g) + (g - u))%R by (change R in (type of g); lra). eapply Rle_trans; [apply Rabs_triang|]. rewrite (Rabs_minus_sym g u). lra.
Qed.

(** *** sincos_embed on the unit interval *)
(** sincos_embed = partial(trig_embed, emb_dim=2) as an embedding function *)
Definition sincos_fun : efun R_num := fun x =>
  match trig_embed (match x with TFloat v => v | TLong z => tmap IZR z end) 2 with Ok t => t | Err _ => tconst [] 0%R end.
Lemma sincos_val0 y : trig_comp 2 0 y = cos (y * PI / 2).
Proof. unfold trig_comp, Binomial.C; cbn -[sqrt]; replace (1 / (1 * 1))%R with 1%R by lra; rewrite sqrt_1; lra. Qed.
Lemma sincos_val1 y : trig_comp 2 1 y = sin (y * PI / 2).
Proof. unfold trig_comp, Binomial.C; cbn -[sqrt]; replace (1 / (1 * 1))%R with 1%R by lra; rewrite sqrt_1; lra. Qed.
Lemma sincos_embeds : embeds_interval (K := R_num) sincos_fun 0 1 2 (fun y k => trig_comp 2 k y).
Proof.
  intros x _. unfold sincos_fun, trig_embed. cbn [Nat.eqb shp tmap]. rewrite list_eqb_refl. cbn [assert_ rbind shp get]. split; [reflexivity|].
  intros i k Hi Hk. cbn [get]. rewrite last_last, (droplast_app i [k] 1 eq_refl). reflexivity.
Qed.
Lemma sincos_smooth k k' : k < 2 -> k' < 2 -> smooth 0 1 (PI ^ 2 / 2) (fun y => trig_comp 2 k y * trig_comp 2 k' y)%R.
Proof.
  intros Hk Hk'.
  assert (Hb : forall u v w : R, (u = v \/ u = - v)%R -> (v = PI ^ 2 / 2 * w)%R -> (-1 <= w <= 1)%R -> (Rabs u <= PI ^ 2 / 2)%R).
  { intros u v w Hu -> Hw. assert (0 <= PI ^ 2 / 2)%R by (pose proof (pow2_ge_0 PI); lra). apply Rabs_le. destruct Hu as [->| ->]; nra. }
  assert (S1 : smooth 0 1 (PI ^ 2 / 2) (fun y => cos (y * PI / 2) * cos (y * PI / 2))%R).
  { exists (fun y => - PI * (cos (y * PI / 2) * sin (y * PI / 2)))%R, (fun y => - (PI ^ 2 / 2) * (cos (y * PI / 2) ^ 2 - sin (y * PI / 2) ^ 2))%R. intros t _.
    split; [auto_derive; [exact Logic.I|unfold Rdiv; field]|]. split; [auto_derive; [exact Logic.I|unfold Rdiv; field]|].
    split; [apply (ex_derive_continuous (V := R_NormedModule)); auto_derive; exact Logic.I|].
    pose proof (sin2_cos2 (t * PI / 2)) as E. unfold Rsqr in E. eapply (Hb _ (PI ^ 2 / 2 * (cos (t * PI / 2) ^ 2 - sin (t * PI / 2) ^ 2))%R); [right; ring|reflexivity|]. nra. }
  assert (S2 : smooth 0 1 (PI ^ 2 / 2) (fun y => sin (y * PI / 2) * sin (y * PI / 2))%R).
  { exists (fun y => PI * (cos (y * PI / 2) * sin (y * PI / 2)))%R, (fun y => (PI ^ 2 / 2) * (cos (y * PI / 2) ^ 2 - sin (y * PI / 2) ^ 2))%R. intros t _.
    split; [auto_derive; [exact Logic.I|unfold Rdiv; field]|]. split; [auto_derive; [exact Logic.I|unfold Rdiv; field]|].
    split; [apply (ex_derive_continuous (V := R_NormedModule)); auto_derive; exact Logic.I|].
    pose proof (sin2_cos2 (t * PI / 2)) as E. unfold Rsqr in E. eapply (Hb _ (PI ^ 2 / 2 * (cos (t * PI / 2) ^ 2 - sin (t * PI / 2) ^ 2))%R); [left; ring|reflexivity|]. nra. }
  assert (S3 : smooth 0 1 (PI ^ 2 / 2) (fun y => cos (y * PI / 2) * sin (y * PI / 2))%R).
  { exists (fun y => PI / 2 * (cos (y * PI / 2) ^ 2 - sin (y * PI / 2) ^ 2))%R, (fun y => - (PI ^ 2 / 2) * (2 * (cos (y * PI / 2) * sin (y * PI / 2))))%R. intros t _.
    split; [auto_derive; [exact Logic.I|unfold Rdiv; field]|]. split; [auto_derive; [exact Logic.I|unfold Rdiv; field]|].
    split; [apply (ex_derive_continuous (V := R_NormedModule)); auto_derive; exact Logic.I|].
    pose proof (sin2_cos2 (t * PI / 2)) as E. unfold Rsqr in E. eapply (Hb _ (PI ^ 2 / 2 * (2 * (cos (t * PI / 2) * sin (t * PI / 2))))%R); [right; ring|reflexivity|].
    pose proof (pow2_ge_0 (cos (t * PI / 2) + sin (t * PI / 2))). pose proof (pow2_ge_0 (cos (t * PI / 2) - sin (t * PI / 2))). lra. }
  assert (He : forall f g : R -> R, (forall y, f y = g y) -> smooth 0 1 (PI ^ 2 / 2) g -> smooth 0 1 (PI ^ 2 / 2) f).
  { intros f g Hfg. replace f with g by (apply FunctionalExtensionality.functional_extensionality; intros y; symmetry; apply Hfg). auto. }
  destruct k as [|[|k]], k' as [|[|k']]; try lia.
  - eapply He; [|exact S1]. intros y. rewrite sincos_val0. reflexivity.
  - eapply He; [|exact S3]. intros y. rewrite sincos_val0, sincos_val1. reflexivity.
  - eapply He; [|exact S3]. intros y. rewrite sincos_val0, sincos_val1. ring.
  - eapply He; [|exact S2]. intros y. rewrite sincos_val1. reflexivity.
Qed.
Lemma sincos_bound k k' y : k < 2 -> k' < 2 -> (Rabs (trig_comp 2 k y * trig_comp 2 k' y) <= 1)%R.
Proof.
  intros Hk Hk'. assert (H : forall q, q < 2 -> (Rabs (trig_comp 2 q y) <= 1)%R).
  { intros q Hq. destruct q as [|[|q]]; [rewrite sincos_val0|rewrite sincos_val1|lia]; apply Rabs_le; [apply COS_bound|apply SIN_bound]. }
  rewrite Rabs_mult. replace 1%R with (1 * 1)%R by ring. apply Rmult_le_compat; try apply Rabs_pos; auto.
Qed.
Lemma pi_sq : (PI ^ 2 <= 16)%R.
Proof. pose proof PI_4. pose proof PI_RGT_0. nra. Qed.
Lemma sincos_off N : 1000 <= N -> ~ within_tol (K := R_num) s0 (trap_sum 0 1 N (fun y => trig_comp 2 0 y * trig_comp 2 1 y)%R).
Proof.
  intros HN H. unfold within_tol in H. cbn [nabs R_num] in H.
  assert (HI : is_RInt (fun y => trig_comp 2 0 y * trig_comp 2 1 y)%R 0 1 (/ PI)%R).
  { apply (is_RInt_ext (fun y => cos (y * PI / 2) * sin (y * PI / 2))%R).
    - intros y _. rewrite sincos_val0, sincos_val1. reflexivity.
    - pose proof PI_RGT_0 as Hp. replace (/ PI)%R with (minus (- cos (1 * PI / 2) ^ 2 / PI)%R (- cos (0 * PI / 2) ^ 2 / PI)%R).
      + apply (is_RInt_derive (V := R_CompleteNormedModule) (fun y => - cos (y * PI / 2) ^ 2 / PI)%R).
        * intros y _. auto_derive; [exact Logic.I|]. unfold Rdiv. field. lra.
        * intros y _. apply (ex_derive_continuous (V := R_NormedModule)). auto_derive. exact Logic.I.
      + replace (1 * PI / 2)%R with (PI / 2)%R by field. replace (0 * PI / 2)%R with 0%R by field. rewrite cos_PI2, cos_0. unfold minus, plus, opp. cbn. field. lra. }
  pose proof (composite 0 1 N (PI ^ 2 / 2) _ _ ltac:(lra) ltac:(lia) (sincos_smooth 0 1 ltac:(lia) ltac:(lia)) HI) as C.
  assert (HN1 : (999 <= INR (N - 1))%R). { replace 999%R with (INR 999) by (rewrite INR_IZR_INZ; reflexivity). apply le_INR. lia. }
  assert (HNp : (0 < 12 * INR (N - 1) ^ 2)%R) by nra.
  assert (HC : (PI ^ 2 / 2 * ((1 - 0) ^ 3 / (12 * INR (N - 1) ^ 2)) <= 1 / 10)%R).
  { pose proof pi_sq. replace ((1 - 0) ^ 3)%R with 1%R by ring. apply (Rmult_le_reg_r (12 * INR (N - 1) ^ 2)); [exact HNp|].
    replace (PI ^ 2 / 2 * (1 / (12 * INR (N - 1) ^ 2)) * (12 * INR (N - 1) ^ 2))%R with (PI ^ 2 / 2)%R by (field; nra). nra. }
  assert (HP : (1 / 4 <= / PI)%R). { pose proof PI_4. pose proof PI_RGT_0. replace (1 / 4)%R with (/ 4)%R by field. apply Rinv_le_contravar; lra. }
  set (s := trap_sum 0 1 N (fun y => trig_comp 2 0 y * trig_comp 2 1 y)%R) in *. apply Rabs_le_between in C.
  assert (Hs : (1 / 10 <= s)%R) by lra. change (Rabs (0 - s) <= / 100000000 + / 100000 * Rabs s)%R in H.
  rewrite Rabs_left, (Rabs_right s) in H by lra. lra.
Qed.
Lemma sincos_visible N : 1000 <= N -> ~ invisible R_num 2 (fun k k' => trap_sum 0 1 N (fun y => trig_comp 2 k y * trig_comp 2 k' y)%R).
Proof. intros HN H. apply (sincos_off N HN), (H 0 1); lia. Qed.
(** C104: every bias-free model over FixedEmbedding(sincos_embed, unit_interval), with any number of sites *)
Theorem C104_sincos (uniform : bool) (m : pmps R_num) e (x : tensor R) (slim par : bool) (batch n D : nat) (T : tensor xreal) :
  shapes_of R_num uniform m n 2 D -> pm_emb R_num m = Some e -> fixed_embedding R_num sincos_fun (mkDom true 1 (Some 0%R)) = Ok e ->
  pm_bias R_num m = None -> 0 < n ->
  shp x = [batch; n] -> (forall p t, p < batch -> t < n -> (0 <= get x [p; t] <= 1)%R) ->
  snd (fwd R_num uniform m (TFloat (tmap (nofR R_num) x)) slim par) = Ok T ->
  exists (dens : list R -> R) Zn I, (0 < Zn)%R /\
    (forall ys, dens ys = (abs2 (amplitude D (edge_at (pm_edge R_num m) 0) (edge_at (pm_edge R_num m) 1)
       (fun t y => vec_site (K := R_num) 2 (pm_core R_num m) uniform None t (fun k => if k =? 0 then cos (y * PI / 2) else sin (y * PI / 2))) ys) / Zn)%R) /\
    (forall p, p < batch -> is_log (get T [p]) (dens (map (fun t => get x [p; t]) (seq 0 n)))) /\
    iter_integral 0 1 n dens I /\
    (Rabs (I - 1) <= total_amplitude uniform m n 2 D ^ 2 * ((1 + PI ^ 2 / (24 * 999 ^ 2)) ^ n - 1) / Zn)%R.
Proof.
  intros Hsh He Hfe Hbias Hn Hs Hr E.
  destruct (C104_integral uniform m e sincos_fun 0 1 2 (fun y k => trig_comp 2 k y) x slim par batch n D T (PI ^ 2 / 2) 1 ltac:(lra) Hsh He (or_introl Hfe) sincos_embeds Hbias Hn Hs Hr E
    sincos_smooth (fun k k' y Hk Hk' _ => sincos_bound k k' y Hk Hk')) as (Zn & I & HZ & Hv & HI & _ & Hb).
  specialize (Hb (sincos_visible 1000 (le_n _))).
  exists (fun ys => (abs2 (K := R_num) (amplitude D (edge_at (pm_edge R_num m) 0) (edge_at (pm_edge R_num m) 1) (fun t y => vec_site 2 (pm_core R_num m) uniform None t (fun k => trig_comp 2 k y)) ys) / Zn)%R), Zn, I.
  split; [exact HZ|]. split.
  { intros ys. f_equal. f_equal. apply amplitude_ext. intros t y i j _ _ _ _. unfold vec_site. f_equal. apply bsum_ext. intros k Hk. f_equal.
    destruct k as [|[|k]]; [apply sincos_val0|apply sincos_val1|lia]. }
  split; [exact Hv|]. split; [exact HI|]. eapply Rle_trans; [exact Hb|]. right.
  assert (EL : ((1 - 0) * 1 + cell_error 0 1 (PI ^ 2 / 2) 1000 = 1 + PI ^ 2 / (24 * 999 ^ 2))%R).
  { unfold cell_error. replace (INR (1000 - 1)) with 999%R by (rewrite INR_IZR_INZ; reflexivity). field. }
  rewrite EL. replace ((1 - 0) * 1)%R with 1%R by ring. rewrite pow1. f_equal. f_equal. ring.
Qed.

(** *** a concrete case: two sites, bond dimension 1, cores and edges all ones *)
Lemma sincos_fixed : exists e, fixed_embedding R_num sincos_fun (mkDom true 1 (Some 0%R)) = Ok e.
Proof.
  assert (HN : 1 < num_points_default) by (apply Nat.ltb_lt; reflexivity).
  destruct (C104_lambda sincos_fun 0 1 2 (fun y k => trig_comp 2 k y) num_points_default (PI ^ 2 / 2) ltac:(lra) HN ltac:(lia) sincos_embeds sincos_smooth) as (t & L & E & _).
  unfold fixed_embedding. rewrite E. eexists. reflexivity.
Qed.
Definition sc_model (e : embedding R_num) : pmps R_num := mkP R_num (tconst [2; 2; 1; 1] 1%R) (tconst [2; 1] 1%R) None (Some e).
Lemma sc_amp (e : embedding R_num) (y y' : R) : amplitude (K := R_num) 1 (edge_at (pm_edge R_num (sc_model e)) 0) (edge_at (pm_edge R_num (sc_model e)) 1)
   (fun t y => vec_site 2 (pm_core R_num (sc_model e)) false None t (fun k => trig_comp 2 k y)) [y; y'] = ((cos (y * PI / 2) + sin (y * PI / 2)) * (cos (y' * PI / 2) + sin (y' * PI / 2)))%R.
Proof. rewrite <- !sincos_val0, <- !sincos_val1. unfold amplitude, sandwich, vec_site, chain, sites, mmul, bias_at, delta, entry, edge_at, sc_model. cbn -[trig_comp]. ring. Qed.
Example C104_sincos_met : exists e T, fixed_embedding R_num sincos_fun (mkDom true 1 (Some 0%R)) = Ok e /\ shapes_of R_num false (sc_model e) 2 2 1 /\
  snd (fwd R_num false (sc_model e) (TFloat (tmap (nofR R_num) (tconst [3; 2] 0%R))) false false) = Ok T.
Proof.
  destruct sincos_fixed as (e & He). exists e.
  assert (Hsh : shapes_of R_num false (sc_model e) 2 2 1).
  { unfold shapes_of, sc_model. cbn. repeat split; try lia. }
  assert (Hll : lossless (K := R_num) 2 (gram_matrix (K := R_num) num_points_default (trap_weight num_points_default (grid 0 1 num_points_default)) (fun q k => trig_comp 2 k (grid 0 1 num_points_default q)))).
  { left. exists 0, 1. split; [lia|]. split; [lia|]. split; [lia|]. apply (sincos_off num_points_default (le_n _)). }
  pose proof (continuous_values R_num false (sc_model e) e sincos_fun 0 1 2 (fun y k => trig_comp 2 k y) (tconst [3; 2] 0%R) false false 3 2 1 ltac:(lra) Hsh eq_refl (or_introl He) sincos_embeds Hll eq_refl
    ltac:(intros; cbn; lra) ltac:(lia) ltac:(discriminate)) as C. cbv zeta in C.
  match type of C with match ?r with Ok _ => _ | Err _ => _ end => change (exists T, fixed_embedding R_num sincos_fun (mkDom true 1 (Some 0%R)) = Ok e /\ shapes_of R_num false (sc_model e) 2 2 1 /\ r = Ok T); destruct r as [T|er] end.
  { exists T. auto. }
  exfalso. destruct C as (_ & [C|(p & _ & C)]).
  - rewrite emb_Z_sum in C by (left; reflexivity). revert C. apply Rgt_not_eq. unfold emb_sum. apply (lsumR_pos _ _ [0; 0]).
    + intros ks Hk. apply Rmult_le_pos; [apply (weight_nonneg _ num_points_default); [intros; apply trap_weight_nonneg; [lra|apply Nat.ltb_lt; reflexivity]|apply (words_letters _ _ _ Hk)]|]. unfold abs2. apply Rle_0_sqr.
    + cbn [words]. apply in_flat_map. exists 0. split; [apply in_seq; unfold num_points_default; lia|]. apply in_map. apply in_flat_map. exists 0. split; [apply in_seq; unfold num_points_default; lia|]. apply in_map. left. reflexivity.
    + assert (Hw : (0 < trap_weight num_points_default (grid 0 1 num_points_default) 0%nat)%R) by (apply first_weight; lra).
      apply Rmult_lt_0_compat; [unfold weight_of; cbn [fold_right]; apply Rmult_lt_0_compat; [exact Hw|rewrite Rmult_1_r; exact Hw]|].
      assert (Ea : emb_psi R_num false (sc_model e) 2 1 (fun q k => trig_comp 2 k (grid 0 1 num_points_default q)) [0; 0] = 1%R).
      { transitivity (amplitude (K := R_num) 1 (edge_at (pm_edge R_num (sc_model e)) 0) (edge_at (pm_edge R_num (sc_model e)) 1) (fun t y => vec_site 2 (pm_core R_num (sc_model e)) false None t (fun k => trig_comp 2 k y)) [grid 0 1 num_points_default 0; grid 0 1 num_points_default 0]); [reflexivity|].
        rewrite sc_amp, grid_0. replace (0 * PI / 2)%R with 0%R by field. rewrite cos_0, sin_0. cbn. lra. }
      rewrite Ea. unfold abs2. cbn [nabs R_num]. rewrite Rabs_R1. lra.
  - pose proof (eq_trans (eq_sym (sc_amp e 0%R 0%R)) C) as C'. clear C. rename C' into C.
    cbn -[cos sin PI] in C. replace (0 * PI / 2)%R with 0%R in C by field. rewrite cos_0, sin_0 in C. lra.
Qed.
Print Assumptions C104_lambda.
Print Assumptions C104_integral.
Print Assumptions C104_sincos.
