(** * P_Product: C117, products of models. *)
From Coq Require Import Ring_theory Ring Reals Lra Classical_Prop.
From Verif Require Import Base Scalars Tensor Utils2 MpsBase ProbMps Spec ModelSpec LinAlg ProbProofs EmbProofs P_Prob P_ZeroExact Contractables Utils TorchMps TmSpec TmProofs TmFinal P_Mps P_Mps2 P_Mps3 P_Mps4 P_MpsCap P_Larger P_Super LogNorm P_Emb P_Bridge.
Open Scope nat_scope.

(** ** Kronecker products *)
Section Kron.
  Variable K : cring.
  Add Ring KrPr : (rth K).
  Variables D1 D2 : nat.
  Definition kron (A B : mat K) : mat K := fun i j => smul (A (i / D2) (j / D2)) (B (i mod D2) (j mod D2)).
  Definition kvec (v w : vec K) : vec K := fun i => smul (v (i / D2)) (w (i mod D2)).
  Hypothesis H2 : 0 < D2.
  Lemma at_pair i j : j < D2 -> (i * D2 + j) / D2 = i /\ (i * D2 + j) mod D2 = j.
  Proof.
    intros Hj. rewrite Nat.add_comm. split; [rewrite Nat.div_add by lia; rewrite Nat.div_small by exact Hj; reflexivity|].
    rewrite Nat.mod_add by lia. apply Nat.mod_small, Hj.
  Qed.
  Lemma pair_lt i : i < D1 * D2 -> i / D2 < D1 /\ i mod D2 < D2.
  Proof. intros H. split; [apply Nat.div_lt_upper_bound; lia|apply Nat.mod_upper_bound; lia]. Qed.
  Lemma bsum_kron (f g : nat -> K) : bsum (D1 * D2) (fun k => smul (f (k / D2)) (g (k mod D2))) = smul (bsum D1 f) (bsum D2 g).
  Proof.
    rewrite (bsum_prod K), (bsum_mulsum K). apply bsum_ext. intros i Hi. apply bsum_ext. intros j Hj. destruct (at_pair i j Hj) as [-> ->]. reflexivity.
  Qed.
  Lemma kron_mmul A B A' B' i j : mmul (D1 * D2) (kron A B) (kron A' B') i j = kron (mmul D1 A A') (mmul D2 B B') i j.
  Proof.
    unfold mmul, kron. rewrite <- bsum_kron. apply bsum_ext. intros k _. ring.
  Qed.
  Lemma kron_delta i j : kron delta delta i j = delta i j.
  Proof.
    unfold kron, delta. destruct (Nat.eqb_spec i j) as [->|N]; [rewrite !Nat.eqb_refl; ring|].
    destruct (Nat.eqb_spec (i / D2) (j / D2)) as [E1|E1]; [|ring]. destruct (Nat.eqb_spec (i mod D2) (j mod D2)) as [E2|E2]; [|ring].
    exfalso. apply N. rewrite (Nat.div_mod i D2), (Nat.div_mod j D2), E1, E2 by lia. reflexivity.
  Qed.
  Lemma kron_ext A B A' B' i j : i < D1 * D2 -> j < D1 * D2 -> (forall i j, i < D1 -> j < D1 -> A i j = A' i j) -> (forall i j, i < D2 -> j < D2 -> B i j = B' i j) -> kron A B i j = kron A' B' i j.
  Proof. intros Hi Hj HA HB. destruct (pair_lt i Hi), (pair_lt j Hj). unfold kron. rewrite HA, HB by assumption. reflexivity. Qed.
  Lemma kron_trace A B : mtrace (D1 * D2) (kron A B) = smul (mtrace D1 A) (mtrace D2 B).
  Proof. unfold mtrace, kron. exact (bsum_kron (fun k => A k k) (fun k => B k k)). Qed.
  Lemma kron_sandwich v1 w1 v2 w2 A B : sandwich (D1 * D2) (D1 * D2) (kvec v1 v2) (kron A B) (kvec w1 w2) = smul (sandwich D1 D1 v1 A w1) (sandwich D2 D2 v2 B w2).
  Proof.
    unfold sandwich, kvec, kron. rewrite <- bsum_kron. apply bsum_ext. intros i _. rewrite <- bsum_kron. apply bsum_ext. intros j _. ring.
  Qed.
  Lemma kron_00 A B : kron A B 0 0 = smul (A 0 0) (B 0 0).
  Proof. unfold kron. rewrite Nat.div_0_l, Nat.mod_0_l by lia. reflexivity. Qed.
  Lemma kron_chain {X} (l : list X) (f1 f2 f : X -> mat K) : (forall x, In x l -> forall i j, i < D1 * D2 -> j < D1 * D2 -> f x i j = kron (f1 x) (f2 x) i j) ->
    forall i j, i < D1 * D2 -> j < D1 * D2 -> chain (map (fun x => (D1 * D2, f x)) l) i j = kron (chain (map (fun x => (D1, f1 x)) l)) (chain (map (fun x => (D2, f2 x)) l)) i j.
  Proof.
    intros H. induction l as [|x l IH]; intros i j Hi Hj; [cbn [map chain]; symmetry; apply kron_delta|]. cbn [map].
    rewrite (chain_cons K). rewrite (mmul_ext K (D1 * D2) (f x) (kron (f1 x) (f2 x)) _ (kron (chain (map (fun x => (D1, f1 x)) l)) (chain (map (fun x => (D2, f2 x)) l)))).
    - rewrite kron_mmul. apply kron_ext; [exact Hi|exact Hj| |]; intros; symmetry; apply (chain_cons K).
    - intros k Hk. apply H; [left; reflexivity|exact Hi|exact Hk].
    - intros k Hk. apply IH; [intros y Hy; apply H; right; exact Hy|exact Hk|exact Hj].
  Qed.
End Kron.

(** ** MPS on one-hot vectors *)
Section ProductMps.
  Variable K : cring.
  Add Ring KrPr2 : (rth K).
  Definition factor_at (F : nat) (w : weights K) (x : nat -> vec K) o (s : option nat) : mat K :=
    match s with Some s => site_matrix F (w_core w s) (w_bias w s) (x s) | None => w_out w o end.
  Definition positions (N lab : nat) : list (option nat) := map Some (seq 0 lab) ++ [None] ++ map Some (seq lab (N - lab)).
  Lemma factors_positions N lab D F w x o : factors N lab D F w x o = map (fun s => (D, factor_at F w x o s)) (positions N lab).
  Proof. unfold factors, positions. rewrite !map_app, !map_map. reflexivity. Qed.
  Lemma onehot_site F (A : nat -> nat -> nat -> K) (B : mat K) (v : vec K) k l r : k < F -> (forall i, i < F -> v i = if i =? k then s1 else s0) ->
    site_matrix F A B v l r = sadd (A l r k) (B l r).
  Proof.
    intros Hk Hv. unfold site_matrix. f_equal. rewrite (bsum_ext F _ (fun i => if i =? k then A l r i else s0)) by (intros i Hi; rewrite (Hv i Hi); destruct (i =? k); ring).
    exact (bsum_delta K F k (fun i => A l r i) Hk).
  Qed.
  Lemma value_product per N lab D1 D2 F (w1 w2 w' : weights K) x o : lab <= N -> 0 < D2 -> 
    (forall s, s < N -> exists k, k < F /\ forall i, i < F -> x s i = if i =? k then s1 else s0) ->
    (forall s l r i, s < N -> w_core w' s l r i = kron K D2 (fun l r => sadd (w_core w1 s l r i) (w_bias w1 s l r)) (fun l r => sadd (w_core w2 s l r i) (w_bias w2 s l r)) l r) ->
    (forall s l r, s < N -> w_bias w' s l r = s0) ->
    (forall l r, w_out w' o l r = kron K D2 (w_out w1 o) (w_out w2 o) l r) ->
    0 < D1 -> value K per N lab (D1 * D2) F w' x o = smul (value K per N lab D1 F w1 x o) (value K per N lab D2 F w2 x o).
  Proof.
    intros Hle H2 Hx Hc Hb Ho H1.
    assert (HC : forall i j, i < D1 * D2 -> j < D1 * D2 -> chain (factors N lab (D1 * D2) F w' x o) i j = kron K D2 (chain (factors N lab D1 F w1 x o)) (chain (factors N lab D2 F w2 x o)) i j).
    { rewrite !factors_positions. apply (kron_chain K D1 D2 H2). intros s Hs l r _ _. destruct s as [s|]; cbn [factor_at]; [|apply Ho].
      assert (HsN : s < N).
      { unfold positions in Hs. apply in_app_iff in Hs as [Hs|Hs]; [apply in_map_iff in Hs as (q & E & Hq); injection E as <-; apply in_seq in Hq; lia|].
        destruct Hs as [Hs|Hs]; [discriminate Hs|]. apply in_map_iff in Hs as (q & E & Hq). injection E as <-. apply in_seq in Hq. lia. }
      destruct (Hx s HsN) as (k & Hk & Hv). rewrite (onehot_site F _ _ _ k l r Hk Hv), (Hb s l r HsN), (Hc s l r k HsN). unfold kron.
      rewrite !(onehot_site F _ _ _ k _ _ Hk Hv). ring. }
    unfold value, ring_value, train_value. destruct per.
    - rewrite <- (kron_trace K D1 D2 H2). unfold mtrace. apply bsum_ext. intros k Hk. apply HC; exact Hk.
    - assert (0 < D1 * D2) by (apply Nat.mul_pos_pos; assumption). rewrite HC by assumption. apply (kron_00 K D2 H2).
  Qed.
  (** the outcomes of the same call on two models and on their product *)
  Definition prod_call (r1 r2 r' : res (tensor K) * option nat) : Prop :=
    match r1 with
    | (Ok t1, g) => exists t2 t', r2 = (Ok t2, g) /\ r' = (Ok t', g) /\ shp t2 = shp t1 /\ shp t' = shp t1 /\
        forall i, Forall2 lt i (shp t1) -> get t' i = smul (get t1 i) (get t2 i)
    | (Err e, _) => fst r2 = Err e /\ fst r' = Err e
    end.
  (** a batch of words, written with one-hot vectors *)
  Definition one_hot_batch (B N F : nat) (x : tensor K) : Prop :=
    shp x = [B; N; F] /\ forall b s, b < B -> s < N -> exists k, k < F /\ forall i, i < F -> get x [b; s; i] = if i =? k then s1 else s0.
  Theorem C117_mps N O F per D1 D2 par1 par2 par' label path std1 std2 std' ub1 ub2 ub' rnd1 rnd2 rnd' m01 m1 m02 m2 m0' :
    mps_init K N O D1 F per par1 label path std1 ub1 rnd1 = Ok m01 -> trained m01 m1 ->
    mps_init K N O D2 F per par2 label path std2 ub2 rnd2 = Ok m02 -> trained m02 m2 ->
    mps_init K N O (D1 * D2) F per par' label path std' ub' rnd' = Ok m0' -> no_path path -> 0 < N ->
    0 < D1 -> 0 < D2 ->
    exists m', trained m0' m' /\
      forall x B g, one_hot_batch B N F x -> prod_call (mps_forward K m1 x g) (mps_forward K m2 x g) (mps_forward K m' x g).
  Proof.
    intros Hi1 Ht1 Hi2 Ht2 Hi' Hp HN HD1 HD2.
    pose proof (init_built K _ _ _ _ _ _ _ _ _ _ _ _ _ Hi1 Ht1) as Hb1. pose proof (init_built K _ _ _ _ _ _ _ _ _ _ _ _ _ Hi2 Ht2) as Hb2.
    assert (T0 : trained m0' m0') by (eapply init_trained; exact Hi').
    pose proof (init_built K _ _ _ _ _ _ _ _ _ _ _ _ _ Hi' T0) as Hb0.
    set (lab := match label with None => N / 2 | Some z => Z.to_nat z end) in *.
    pose proof (b_le K _ _ _ _ _ _ _ _ _ _ Hb1) as Hle. pose proof (b_lab K _ _ _ _ _ _ _ _ _ _ Hb0) as El0.
    destruct (realise K
      (fun s l r i => kron K D2 (fun l r => sadd (w_core (weights_of m1) s l r i) (w_bias (weights_of m1) s l r)) (fun l r => sadd (w_core (weights_of m2) s l r i) (w_bias (weights_of m2) s l r)) l r)
      (fun _ => no_bias) (fun o => kron K D2 (w_out (weights_of m1) o) (w_out (weights_of m2) o))
      N O (D1 * D2) F lab ub' m0' El0 Hle (b_form K _ _ _ _ _ _ _ _ _ _ Hb0)) as (mods & Hmods & HW).
    set (m' := mkMps K (m_input m0') (m_output m0') (m_bond m0') (m_feature m0') (m_periodic m0') (m_parallel m0') (m_label m0') (m_path m0') (m_use_bias m0') mods (m_fmap m0')).
    assert (Htr : trained m0' m') by (split; [exact Hmods|reflexivity]).
    exists m'. split; [exact Htr|]. destruct (HW m' eq_refl El0) as (W1 & W2 & W3). clear HW. intros x B g [Hx Hh].
    pose proof (exact_forward K _ _ _ _ _ _ _ _ _ _ _ _ _ x B g Hi1 Ht1 Hp Hx) as X1. pose proof (exact_forward K _ _ _ _ _ _ _ _ _ _ _ _ _ x B g Hi2 Ht2 Hp Hx) as X2.
    pose proof (exact_forward K _ _ _ _ _ _ _ _ _ _ _ _ _ x B g Hi' Htr Hp Hx) as X'.
    rewrite (b_lab K _ _ _ _ _ _ _ _ _ _ Hb1) in X1. rewrite (b_lab K _ _ _ _ _ _ _ _ _ _ Hb2) in X2. rewrite (b_lab K _ _ _ _ _ _ _ _ _ _ (init_built K _ _ _ _ _ _ _ _ _ _ _ _ _ Hi' Htr)) in X'. fold lab in X'.
    assert (Ex : forall D, 0 < D -> expected N lab D per g B = expected N lab 1 per g B).
    { intros D HD. unfold expected. replace (D =? 0) with false; [reflexivity|]. symmetry. apply Nat.eqb_neq. lia. }
    assert (HD' : 0 < D1 * D2) by (apply Nat.mul_pos_pos; assumption).
    rewrite (Ex D1 HD1) in X1. rewrite (Ex D2 HD2) in X2. rewrite (Ex (D1 * D2) HD') in X'.
    destruct (expected N lab 1 per g B) as [n|ex] eqn:En.
    - destruct X1 as (T1 & E1 & S1 & G1). destruct X2 as (T2 & E2 & S2 & G2). destruct X' as (T' & E' & S' & G'). rewrite E1, E2, E'. cbn [prod_call].
      exists T2, T'. split; [reflexivity|]. split; [reflexivity|]. split; [congruence|]. split; [congruence|].
      intros i Hii. rewrite S1 in Hii. destruct (index2 _ _ _ Hii) as (r & o & -> & Hr & Ho). rewrite G1, G2, G' by assumption.
      apply value_product; try assumption.
      + intros s Hs. apply Hh; [|exact Hs]. exact (source_lt N lab 1 per g B n r En HN Hr).
      + intros s l r' Hs. rewrite (W2 s l r' Hs). destruct ub'; reflexivity.
      + intros l r'. apply W3.
    - unfold prod_call. destruct (mps_forward K m1 x g) as [[t|e] g1]; cbn [fst] in X1; [discriminate X1|]. injection X1 as ->. auto.
  Qed.
End ProductMps.

(** ** ProbMPS and ProbUnifMPS on words *)
Section ProductProb.
  Variable K : numfield.
  Add Ring KrPr3 : (rth K).
  Variables D1 D2 : nat.
  Hypotheses (H1 : 0 < D1) (H2 : 0 < D2).
  Definition prod_prob (uniform : bool) (m1 m2 : pmps K) : pmps K := {|
    pm_core := if uniform then mkT [size 0 (pm_core K m1); D1 * D2; D1 * D2] (fun i => match i with [k; l; r] =>
                   kron K D2 (letter_site (pm_core K m1) true (pm_bias K m1) 0 k) (letter_site (pm_core K m2) true (pm_bias K m2) 0 k) l r | _ => s0 end)
               else mkT [size 0 (pm_core K m1); size 1 (pm_core K m1); D1 * D2; D1 * D2] (fun i => match i with [t; k; l; r] =>
                   kron K D2 (letter_site (pm_core K m1) false (pm_bias K m1) t k) (letter_site (pm_core K m2) false (pm_bias K m2) t k) l r | _ => s0 end);
    pm_edge := mkT [2; D1 * D2] (fun i => match i with [e; j] => kvec K D2 (edge_at (pm_edge K m1) e) (edge_at (pm_edge K m2) e) j | _ => s0 end);
    pm_bias := None;
    pm_emb := None |}.
  Lemma prod_letter uniform m1 m2 t k i j : letter_site (pm_core K (prod_prob uniform m1 m2)) uniform (pm_bias K (prod_prob uniform m1 m2)) t k i j
    = kron K D2 (letter_site (pm_core K m1) uniform (pm_bias K m1) t k) (letter_site (pm_core K m2) uniform (pm_bias K m2) t k) i j.
  Proof.
    unfold letter_site at 1, entry at 1. cbn [pm_bias prod_prob bias_at]. destruct uniform.
    - cbn [pm_core prod_prob get]. transitivity (kron K D2 (letter_site (pm_core K m1) true (pm_bias K m1) 0 k) (letter_site (pm_core K m2) true (pm_bias K m2) 0 k) i j); [ring|reflexivity].
    - cbn [pm_core prod_prob get]. ring.
  Qed.
  Lemma prod_shapes uniform m1 m2 n d : shapes_of K uniform m1 n d D1 -> shapes_of K uniform (prod_prob uniform m1 m2) n d (D1 * D2).
  Proof.
    intros Hs. assert (0 < D1 * D2) by (apply Nat.mul_pos_pos; assumption).
    destruct uniform; cbn [shapes_of] in *; [unfold shapes_unif in *|unfold shapes_fixed in *]; cbn [pm_core pm_edge pm_bias prod_prob shp]; unfold size.
    - destruct Hs as (A1 & A2 & A3 & A4 & A5). rewrite A3. repeat (split; [try assumption; try reflexivity|]). exact Logic.I.
    - destruct Hs as (A0 & A1 & A2 & A3 & A4 & A5). rewrite A3. repeat (split; [try assumption; try reflexivity|]). exact Logic.I.
  Qed.
  (** the amplitude of a word *)
  Definition word_amp (uniform : bool) (m : pmps K) (D : nat) (w : list nat) : K :=
    amplitude D (edge_at (pm_edge K m) 0) (edge_at (pm_edge K m) 1) (letter_site (pm_core K m) uniform (pm_bias K m)) w.
  Lemma prod_word uniform m1 m2 w : word_amp uniform (prod_prob uniform m1 m2) (D1 * D2) w = smul (word_amp uniform m1 D1 w) (word_amp uniform m2 D2 w).
  Proof.
    unfold word_amp, amplitude. rewrite (word_map w), !(sites_map K). rewrite <- (kron_sandwich K D1 D2 H2). unfold sandwich.
    apply bsum_ext. intros i Hi. apply bsum_ext. intros j Hj.
    refine (f_equal (fun z => smul _ (smul z _)) _).
    exact (kron_chain K D1 D2 H2 (seq 0 (List.length w)) _ _ (fun s => letter_site (pm_core K (prod_prob uniform m1 m2)) uniform (pm_bias K (prod_prob uniform m1 m2)) s (nth s w 0))
      (fun s _ l r _ _ => prod_letter uniform m1 m2 s (nth s w 0) l r) i j Hi Hj).
  Qed.
  (** the probability of a word *)
  Definition word_prob (uniform : bool) (m : pmps K) (n d D : nat) (w : list nat) : R := (abs2 (word_amp uniform m D w) / Zfun K uniform m n d D)%R.
  (** sum of two log probabilities, -inf included *)
  Definition xadd_log (a b : xreal) (c : R) : xreal := match a, b with XFin x, XFin y => XFin (x + y - c) | _, _ => XNInf end.
  Theorem C117_prob (uniform : bool) (m1 m2 : pmps K) (n d : nat) : shapes_of K uniform m1 n d D1 -> shapes_of K uniform m2 n d D2 -> 0 < n -> pm_emb K m1 = None -> pm_emb K m2 = None ->
    exists m', shapes_of K uniform m' n d (D1 * D2) /\ pm_emb K m' = None /\ pm_bias K m' = None /\
      let overlap := lsum (K := R_ops) (words d n) (fun w => (word_prob uniform m1 n d D1 w * word_prob uniform m2 n d D2 w)%R) in
      forall (ix : tensor Z) batch slim1 par1 slim2 par2 slim par T1 T2, wf_input (K := K) (TLong ix) batch n d ->
        (slim1 = true -> pm_bias K m1 = None) -> (slim2 = true -> pm_bias K m2 = None) ->
        snd (fwd K uniform m1 (TLong ix) slim1 par1) = Ok T1 -> snd (fwd K uniform m2 (TLong ix) slim2 par2) = Ok T2 ->
        match snd (fwd K uniform m' (TLong ix) slim par) with
        | Ok T => (0 < overlap)%R /\ shp T = [batch] /\ forall b, b < batch -> get T [b] = xadd_log (get T1 [b]) (get T2 [b]) (ln overlap)
        | Err er => er = AssertionError /\ (overlap = 0%R \/ exists b, b < batch /\ (get T1 [b] = XNInf \/ get T2 [b] = XNInf))
        end.
  Proof.
    intros Hs1 Hs2 Hn He1 He2. exists (prod_prob uniform m1 m2). pose proof (prod_shapes uniform m1 m2 n d Hs1) as Hs'.
    split; [exact Hs'|]. split; [reflexivity|]. split; [reflexivity|]. intros overlap ix batch slim1 par1 slim2 par2 slim par T1 T2 Hx Hsl1 Hsl2 E1 E2.
    pose proof (C90_forward_exact K uniform m1 (TLong ix) slim1 par1 batch n d D1 Hs1 He1 Hx Hn Hsl1) as X1. cbv zeta in X1. rewrite E1 in X1. destruct X1 as (HZ1 & _ & _ & G1).
    pose proof (C90_forward_exact K uniform m2 (TLong ix) slim2 par2 batch n d D2 Hs2 He2 Hx Hn Hsl2) as X2. cbv zeta in X2. rewrite E2 in X2. destruct X2 as (HZ2 & _ & _ & G2).
    pose proof (C90_forward_exact K uniform (prod_prob uniform m1 m2) (TLong ix) slim par batch n d (D1 * D2) Hs' eq_refl Hx Hn (fun _ => eq_refl)) as X. cbv zeta in X.
    set (Z1 := Zfun K uniform m1 n d D1) in *. set (Z2 := Zfun K uniform m2 n d D2) in *.
    assert (EZ : Zfun K uniform (prod_prob uniform m1 m2) n d (D1 * D2) = (Z1 * Z2 * overlap)%R).
    { unfold Zfun, partition_fn, overlap. refine (eq_trans _ (lsum_mul_l R_cring (words d n) (Z1 * Z2)%R (fun w => (word_prob uniform m1 n d D1 w * word_prob uniform m2 n d D2 w)%R))).
      apply (lsum_ext R_cring). intros w _. change (abs2 (K := K) (word_amp uniform (prod_prob uniform m1 m2) (D1 * D2) w) = (Z1 * Z2 * (word_prob uniform m1 n d D1 w * word_prob uniform m2 n d D2 w))%R).
      rewrite prod_word, (abs2_mul K). unfold word_prob. fold Z1 Z2. field. lra. }
    rewrite EZ in X.
    assert (EA : forall b, psi K uniform (prod_prob uniform m1 m2) n d (D1 * D2) (TLong ix) b = smul (psi K uniform m1 n d D1 (TLong ix) b) (psi K uniform m2 n d D2 (TLong ix) b)) by (intros b; exact (prod_word uniform m1 m2 (row_letters ix n b))).
    assert (HP : (0 < Z1 * Z2)%R) by (apply Rmult_lt_0_compat; assumption).
    assert (Pos : forall z : K, z <> s0 -> (0 < abs2 z)%R).
    { intros z Hz. destruct (Rle_lt_or_eq_dec 0 (abs2 z) (abs2_nonneg K z)) as [H|H]; [exact H|]. exfalso. apply Hz, (abs2_zero K), eq_sym, H. }
    assert (NZ : forall z w : K, z <> s0 -> w <> s0 -> smul z w <> s0).
    { intros z w Hz Hw E. pose proof (Pos z Hz). pose proof (Pos w Hw). assert (Q : abs2 (smul z w) = 0%R) by (rewrite E; apply (abs2_s0 K)). rewrite (abs2_mul K) in Q. apply Rmult_integral in Q as [Q|Q]; lra. }
    destruct (snd (fwd K uniform (prod_prob uniform m1 m2) (TLong ix) slim par)) as [T|er].
    - destruct X as (HZ & _ & ST & GT). assert (HO : (0 < overlap)%R).
      { destruct (Rlt_or_le 0 overlap) as [H|H]; [exact H|]. exfalso. assert (Z1 * Z2 * overlap <= 0)%R by (rewrite <- (Rmult_0_r (Z1 * Z2)); apply Rmult_le_compat_l; lra). lra. }
      split; [exact HO|]. split; [exact ST|]. intros b Hb. specialize (GT b Hb). specialize (G1 b Hb). specialize (G2 b Hb). cbv zeta in GT, G1, G2.
      fold (psi K uniform (prod_prob uniform m1 m2) n d (D1 * D2) (TLong ix) b) in GT. fold (psi K uniform m1 n d D1 (TLong ix) b) in G1. fold (psi K uniform m2 n d D2 (TLong ix) b) in G2. rewrite EA in GT.
      set (p1 := psi K uniform m1 n d D1 (TLong ix) b) in *. set (p2 := psi K uniform m2 n d D2 (TLong ix) b) in *. destruct G1 as [G1 G1'], G2 as [G2 G2'], GT as [GT GT'].
      destruct (classic (p1 = s0)) as [Z0|N1]; [rewrite (G1 Z0), GT by (rewrite Z0; ring); reflexivity|].
      destruct (classic (p2 = s0)) as [Z0|N2]; [rewrite (G2 Z0), (G1' N1), GT by (rewrite Z0; ring); reflexivity|].
      rewrite (G1' N1), (G2' N2), (GT' (NZ _ _ N1 N2)). cbn [xadd_log]. f_equal. rewrite (abs2_mul K).
      pose proof (Pos _ N1) as Q1. pose proof (Pos _ N2) as Q2.
      assert (Q3 : (0 < abs2 p1 / Z1)%R) by (apply Rdiv_lt_0_compat; assumption). assert (Q4 : (0 < abs2 p2 / Z2)%R) by (apply Rdiv_lt_0_compat; assumption).
      rewrite <- ln_mult by assumption. unfold Rminus. rewrite <- ln_Rinv by exact HO. rewrite <- ln_mult; [|apply Rmult_lt_0_compat; assumption|apply Rinv_0_lt_compat; exact HO]. f_equal. field. lra.
    - destruct X as (Er & X). split; [exact Er|]. destruct X as [X|(b & Hb & X)].
      + left. apply Rmult_integral in X as [X|X]; [lra|exact X].
      + right. exists b. split; [exact Hb|]. pose proof (lost_zero K uniform _ n d _ _ slim par b X) as Q. rewrite EA in Q.
        destruct (G1 b Hb) as [G1' _], (G2 b Hb) as [G2' _].
        destruct (classic (psi K uniform m1 n d D1 (TLong ix) b = s0)) as [Z0|N1]; [left; exact (G1' Z0)|].
        destruct (classic (psi K uniform m2 n d D2 (TLong ix) b = s0)) as [Z0|N2]; [right; exact (G2' Z0)|]. exfalso. exact (NZ _ _ N1 N2 Q).
  Qed.
End ProductProb.

(** ** The hypotheses are met *)
(** two trained models of bond dimensions 2 and 3 that score the words 0110 and 1101 with 7, 1 and 5, -2 *)
Example C117_met : forall per : bool, exists m0' m', mps_init R_cring 4 1 6 2 per true None PNone (3%R : R_cring) true (fun _ _ => 1%R) = Ok m0' /\ trained m0' m' /\
  forall g, exists out, mps_forward R_cring m' sup_x g = (Ok out, Some 2) /\ get out [0; 0] = 35%R /\ get out [1; 0] = (-2)%R.
Proof.
  intros per. set (L := [[0; 1; 1; 0]; [1; 1; 0; 1]]).
  assert (HD : NoDup L) by (repeat constructor; cbn; intuition discriminate).
  assert (HN : forall w, In w L -> List.length w = 4) by (intros w [<-|[<-|[]]]; reflexivity).
  assert (M : forall D (u v : R_cring), 2 <= D -> exists m01 m1, mps_init R_cring 4 1 D 2 per false None PNone (1%R : R_cring) true (fun _ _ => 1%R) = Ok m01 /\ trained m01 m1 /\
    forall g, exists out, mps_forward R_cring m1 sup_x g = (Ok out, Some 2) /\ shp out = [2; 1] /\ get out [0; 0] = u /\ get out [1; 0] = v).
  { intros D u v H2. destruct (C34_constructor R_cring 4 1 D 2 per false None PNone (1%R : R_cring) true (fun _ _ => 1%R)) as (m0 & Em & _ & El); [exact Logic.I|left; left; reflexivity|].
    destruct (C112_memorise R_cring 4 1 D 2 per false None PNone (1%R : R_cring) true (fun _ _ => 1%R) m0 L (fun w _ => match w with 0 :: _ => u | _ => v end) Em (or_introl eq_refl) ltac:(lia)) as (m & Ht & H).
    - rewrite El. split; discriminate.
    - exact HD.
    - cbn. lia.
    - exact HN.
    - exists m0, m. split; [exact Em|]. split; [exact Ht|]. intros g. destruct (H sup_x 2 g (fun b => nth b L []) eq_refl) as (out & Eo & So & G).
      + left. rewrite El. change (0 < 2). lia.
      + intros b Hb. destruct b as [|[|b]]; [| |lia]; (split; [reflexivity|]; split; [|reflexivity]); intros k Hk; cbn in Hk; lia.
      + exists out. split; [exact Eo|]. split; [exact So|]. split; (rewrite G by lia); reflexivity. }
  destruct (M 2 7%R 1%R ltac:(lia)) as (m01 & m1 & E1 & Ht1 & V1). destruct (M 3 5%R (-2)%R ltac:(lia)) as (m02 & m2 & E2 & Ht2 & V2).
  destruct (C34_constructor R_cring 4 1 6 2 per true None PNone (3%R : R_cring) true (fun _ _ => 1%R)) as (m0' & E' & _ & _); [exact Logic.I|left; left; reflexivity|].
  destruct (C117_mps R_cring 4 1 2 per 2 3 false false true None PNone (1%R : R_cring) (1%R : R_cring) (3%R : R_cring) true true true (fun _ _ => 1%R) (fun _ _ => 1%R) (fun _ _ => 1%R) m01 m1 m02 m2 m0' E1 Ht1 E2 Ht2 E' (or_introl eq_refl) ltac:(lia) ltac:(lia) ltac:(lia))
    as (m' & Ht' & H).
  exists m0', m'. split; [exact E'|]. split; [exact Ht'|]. intros g.
  assert (OH : one_hot_batch R_cring 2 4 2 sup_x).
  { split; [reflexivity|]. intros b s Hb Hs. exists (nth s (nth b L []) 0). split; [|intros i Hi; reflexivity].
    destruct b as [|[|b]]; [| |lia]; destruct s as [|[|[|[|s]]]]; try lia; cbn; lia. }
  specialize (H sup_x 2 g OH). destruct (V1 g) as (o1 & F1 & S1 & A1 & B1). destruct (V2 g) as (o2 & F2 & S2 & A2 & B2).
  rewrite F1, F2 in H. destruct H as (t2 & t' & Q2 & Q' & _ & _ & G). injection Q2 as <-. exists t'. split; [exact Q'|]. rewrite S1 in G.
  assert (V : forall r o, r < 2 -> o < 1 -> Forall2 lt [r; o] [2; 1]) by (intros; repeat (apply Forall2_cons; [assumption|]); apply Forall2_nil).
  rewrite !G by (apply V; lia). rewrite A1, B1, A2, B2. split; [change (7 * 5 = 35)%R|change (1 * -2 = -2)%R]; lra.
Qed.
(** the product of a biased ProbMPS with itself, and of a ProbUnifMPS with itself, returns a finite value on every word *)
Example C117_prob_met : forall uniform : bool, let m := if uniform then pe_u else pe_mb in
  exists m' c T1, shapes_of R_num uniform m' 2 2 4 /\ snd (fwd R_num uniform m (TLong pe_all) false true) = Ok T1 /\
  forall slim par, exists T, snd (fwd R_num uniform m' (TLong pe_all) slim par) = Ok T /\
    forall b, b < 4 -> exists a, get T1 [b] = XFin a /\ get T [b] = XFin (a + a - ln c).
Proof.
  intros uniform m.
  assert (Hs : shapes_of R_num uniform m 2 2 2) by (destruct uniform; apply C09_hyps_met).
  assert (He : pm_emb R_num m = None) by (destruct uniform; reflexivity).
  assert (Hpsi : forall b, b < 4 -> psi R_num uniform m 2 2 2 (TLong pe_all) b <> 0%R) by (destruct uniform; [exact C10_hyps_met|exact C08_hyps_met]).
  destruct (C117_prob R_num 2 2 ltac:(lia) ltac:(lia) uniform m m 2 2 Hs Hs ltac:(lia) He He) as (m' & Hs' & _ & _ & H).
  pose proof (C90_forward_exact R_num uniform m (TLong pe_all) false true 4 2 2 2 Hs He pe_wf ltac:(lia) ltac:(discriminate)) as X. cbv zeta in X.
  exists m', (lsum (K := R_ops) (words 2 2) (fun w => (word_prob R_num uniform m 2 2 2 w * word_prob R_num uniform m 2 2 2 w)%R)).
  assert (E1 : exists T1, snd (fwd R_num uniform m (TLong pe_all) false true) = Ok T1 /\ forall b, b < 4 -> exists a, get T1 [b] = XFin a).
  { destruct uniform.
    - destruct (C10_forward_born R_num pe_u pe_all false true 4 2 2 2) as (T & E & HT & G); [apply C09_hyps_met|reflexivity|exact pe_wf|lia|lia|intros q; destruct (Bool.diff_false_true q)|exact C10_hyps_met|].
      exists T. split; [exact E|]. intros b Hb. eexists. apply G. exact Hb.
    - destruct (C08_forward_born R_num pe_mb pe_all false true 4 2 2 2) as (T & E & HT & G); [apply C09_hyps_met|reflexivity|exact pe_wf|lia|intros q; destruct (Bool.diff_false_true q)|exact C08_hyps_met|].
      exists T. split; [exact E|]. intros b Hb. eexists. apply G. exact Hb. }
  destruct E1 as (T1 & E1 & G1). exists T1. split; [exact Hs'|]. split; [exact E1|]. intros slim par. rewrite E1 in X. destruct X as (HZ & _).
  specialize (H pe_all 4 false true false true slim par T1 T1 pe_wf (fun q => False_ind _ (Bool.diff_false_true q)) (fun q => False_ind _ (Bool.diff_false_true q)) E1 E1). cbv zeta in H.
  assert (HP : forall b, b < 4 -> (0 < word_prob R_num uniform m 2 2 2 (row_letters pe_all 2 b))%R).
  { intros b Hb. unfold word_prob. apply Rdiv_lt_0_compat; [|exact HZ].
    destruct (Rle_lt_or_eq_dec 0 _ (abs2_nonneg R_num (word_amp R_num uniform m 2 (row_letters pe_all 2 b)))) as [Q|Q]; [exact Q|].
    exfalso. apply (Hpsi b Hb). exact (abs2_zero R_num _ (eq_sym Q)). }
  assert (HO : (0 < lsum (K := R_ops) (words 2 2) (fun w => (word_prob R_num uniform m 2 2 2 w * word_prob R_num uniform m 2 2 2 w)%R))%R).
  { pose proof (HP 0 ltac:(lia)) as Q0. pose proof (HP 1 ltac:(lia)) as Q1. pose proof (HP 2 ltac:(lia)) as Q2. pose proof (HP 3 ltac:(lia)) as Q3.
    change (row_letters pe_all 2 0) with [0; 0] in Q0. change (row_letters pe_all 2 1) with [0; 1] in Q1. change (row_letters pe_all 2 2) with [1; 0] in Q2. change (row_letters pe_all 2 3) with [1; 1] in Q3.
    pose proof (Rmult_lt_0_compat _ _ Q0 Q0) as P0. pose proof (Rmult_lt_0_compat _ _ Q1 Q1) as P1. pose proof (Rmult_lt_0_compat _ _ Q2 Q2) as P2. pose proof (Rmult_lt_0_compat _ _ Q3 Q3) as P3.
    change (words 2 2) with [[0; 0]; [0; 1]; [1; 0]; [1; 1]]. cbn [lsum fold_right map sadd s0 R_ops]. lra. }
  destruct (snd (fwd R_num uniform m' (TLong pe_all) slim par)) as [T|er].
  - destruct H as (_ & _ & H). exists T. split; [reflexivity|]. intros b Hb. destruct (G1 b Hb) as (a & Ea). exists a. split; [exact Ea|]. rewrite (H b Hb), Ea. reflexivity.
  - exfalso. destruct H as [_ [H|(b & Hb & H)]]; [lra|]. destruct (G1 b Hb) as (a & Ea). rewrite Ea in H. destruct H; discriminate.
Qed.

Print Assumptions C117_mps.
Print Assumptions C117_prob.
