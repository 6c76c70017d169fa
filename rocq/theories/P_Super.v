(** * P_Super: C115, sums of models. *)
From Coq Require Import Ring_theory Ring Reals Lra Classical_Prop.
From Verif Require Import Base Scalars Tensor Utils2 MpsBase ProbMps Spec ModelSpec LinAlg ProbProofs EmbProofs P_Prob P_ZeroExact Contractables Utils TorchMps TmSpec TmProofs TmFinal P_Mps P_Mps2 P_Mps3 P_Mps4 P_TiMps P_MpsCap P_Larger LogNorm.
Open Scope nat_scope.

(** ** Direct sums of matrices *)
Section Direct.
  Variable K : cring.
  Add Ring KrSu : (rth K).
  Variables D1 D2 : nat.
  Notation D := (D1 + D2).
  Definition dsum (A B : mat K) : mat K := fun i j =>
    if i <? D1 then if j <? D1 then A i j else s0 else if j <? D1 then s0 else B (i - D1) (j - D1).
  Definition dvec (v w : vec K) : vec K := fun i => if i <? D1 then v i else w (i - D1).
  Lemma lt_true a b : a < b -> a <? b = true. Proof. apply Nat.ltb_lt. Qed.
  Lemma lt_false a b : b <= a -> a <? b = false. Proof. apply Nat.ltb_ge. Qed.
  Lemma dsum_mmul A B A' B' i j : mmul D (dsum A B) (dsum A' B') i j = dsum (mmul D1 A A') (mmul D2 B B') i j.
  Proof.
    unfold mmul. rewrite (bsum_split K). unfold dsum. destruct (i <? D1).
    - rewrite (bsum_zero K D2) by (intros k Hk; rewrite (lt_false (D1 + k) D1) by lia; ring). destruct (j <? D1).
      + rewrite (bsum_ext D1 _ (fun k => smul (A i k) (A' k j))) by (intros k Hk; rewrite (lt_true k D1) by exact Hk; reflexivity). ring.
      + rewrite (bsum_zero K D1) by (intros k Hk; rewrite (lt_true k D1) by exact Hk; ring). ring.
    - rewrite (bsum_zero K D1) by (intros k Hk; rewrite (lt_true k D1) by exact Hk; ring). destruct (j <? D1).
      + rewrite (bsum_zero K D2) by (intros k Hk; rewrite (lt_false (D1 + k) D1) by lia; ring). ring.
      + rewrite (bsum_ext D2 _ (fun k => smul (B (i - D1) k) (B' k (j - D1)))); [ring|].
        intros k Hk. rewrite (lt_false (D1 + k) D1) by lia. replace (D1 + k - D1) with k by lia. reflexivity.
  Qed.
  Lemma dsum_delta i j : dsum delta delta i j = delta i j.
  Proof.
    unfold dsum, delta. destruct (Nat.ltb_spec i D1), (Nat.ltb_spec j D1); [reflexivity| | |].
    - replace (i =? j) with false by (symmetry; apply Nat.eqb_neq; lia). reflexivity.
    - replace (i =? j) with false by (symmetry; apply Nat.eqb_neq; lia). reflexivity.
    - destruct (Nat.eqb_spec i j) as [->|N]; [rewrite Nat.eqb_refl; reflexivity|]. replace (i - D1 =? j - D1) with false by (symmetry; apply Nat.eqb_neq; lia). reflexivity.
  Qed.
  Lemma dsum_lin F (v : nat -> K) (A B : nat -> mat K) i j :
    bsum F (fun k => smul (v k) (dsum (A k) (B k) i j)) = dsum (fun i j => bsum F (fun k => smul (v k) (A k i j))) (fun i j => bsum F (fun k => smul (v k) (B k i j))) i j.
  Proof. unfold dsum. destruct (i <? D1), (j <? D1); try reflexivity; apply (bsum_zero K); intros; ring. Qed.
  Lemma dsum_add A B A' B' i j : sadd (dsum A B i j) (dsum A' B' i j) = dsum (fun i j => sadd (A i j) (A' i j)) (fun i j => sadd (B i j) (B' i j)) i j.
  Proof. unfold dsum. destruct (i <? D1), (j <? D1); try reflexivity; ring. Qed.
  Lemma dsum_trace A B : mtrace D (dsum A B) = sadd (mtrace D1 A) (mtrace D2 B).
  Proof.
    unfold mtrace. rewrite (bsum_split K). f_equal.
    - apply bsum_ext. intros k Hk. unfold dsum. rewrite (lt_true k D1) by exact Hk. reflexivity.
    - apply bsum_ext. intros k Hk. unfold dsum. rewrite (lt_false (D1 + k) D1) by lia. replace (D1 + k - D1) with k by lia. reflexivity.
  Qed.
  Lemma dsum_ext A B A' B' i j : i < D -> j < D -> (forall i j, i < D1 -> j < D1 -> A i j = A' i j) -> (forall i j, i < D2 -> j < D2 -> B i j = B' i j) -> dsum A B i j = dsum A' B' i j.
  Proof. intros Hi Hj HA HB. unfold dsum. destruct (Nat.ltb_spec i D1), (Nat.ltb_spec j D1); try reflexivity; [apply HA; assumption|apply HB; lia]. Qed.
  Lemma dsum_sandwich (v1 w1 v2 w2 : vec K) A B :
    sandwich D D (dvec v1 v2) (dsum A B) (dvec w1 w2) = sadd (sandwich D1 D1 v1 A w1) (sandwich D2 D2 v2 B w2).
  Proof.
    unfold sandwich. rewrite (bsum_split K). f_equal; apply bsum_ext; intros i Hi; rewrite (bsum_split K); unfold dvec, dsum.
    - rewrite (lt_true i D1) by exact Hi. rewrite (bsum_zero K D2) by (intros k Hk; rewrite (lt_false (D1 + k) D1) by lia; ring).
      rewrite (bsum_ext D1 _ (fun j => smul (v1 i) (smul (A i j) (w1 j)))) by (intros k Hk; rewrite (lt_true k D1) by exact Hk; reflexivity). ring.
    - rewrite (lt_false (D1 + i) D1) by lia. rewrite (bsum_zero K D1) by (intros k Hk; rewrite (lt_true k D1) by exact Hk; ring).
      replace (D1 + i - D1) with i by lia.
      rewrite (bsum_ext D2 _ (fun j => smul (v2 i) (smul (B i j) (w2 j)))); [ring|]. intros k Hk. rewrite (lt_false (D1 + k) D1) by lia. replace (D1 + k - D1) with k by lia. reflexivity.
  Qed.

  (** a change of basis that mixes the coordinates 0 and D1 with the matrix ((1,1),(1,2)) of determinant 1 *)
  Definition rowop (M : mat K) : mat K := fun i j =>
    if i =? 0 then sadd (sadd (M 0 j) (M 0 j)) (ropp (M D1 j)) else if i =? D1 then sadd (M D1 j) (ropp (M 0 j)) else M i j.
  Definition colop (M : mat K) : mat K := fun i j =>
    if j =? 0 then sadd (M i 0) (M i D1) else if j =? D1 then sadd (M i 0) (sadd (M i D1) (M i D1)) else M i j.
  Definition mix (A B : mat K) : mat K := colop (rowop (dsum A B)).
  Hypotheses (H1 : 0 < D1) (H2 : 0 < D2).
  Lemma bsum_two n p q (f g : nat -> K) : p < n -> q < n -> p <> q -> (forall k, k < n -> k <> p -> k <> q -> f k = g k) ->
    sadd (f p) (f q) = sadd (g p) (g q) -> bsum n f = bsum n g.
  Proof.
    intros Hp Hq Hpq He Hs.
    assert (G : forall h : nat -> K, bsum n h = sadd (bsum n (fun k => if k =? p then s0 else if k =? q then s0 else h k)) (sadd (h p) (h q))).
    { intros h. rewrite <- (bsum_delta K n p (fun _ => h p) Hp) at 1. rewrite <- (bsum_delta K n q (fun _ => h q) Hq) at 1. rewrite <- !(bsum_add K).
      apply bsum_ext. intros k Hk. destruct (Nat.eqb_spec k p) as [->|Np].
      - replace (p =? q) with false by (symmetry; apply Nat.eqb_neq; exact Hpq). ring.
      - destruct (Nat.eqb_spec k q) as [->|Nq]; ring. }
    rewrite (G f), (G g), Hs. f_equal. apply bsum_ext. intros k Hk. destruct (Nat.eqb_spec k p); [reflexivity|]. destruct (Nat.eqb_spec k q); [reflexivity|]. apply He; assumption.
  Qed.
  Lemma cancel M M' i j : mmul D (colop M) (rowop M') i j = mmul D M M' i j.
  Proof.
    unfold mmul. apply (bsum_two D 0 D1); [lia|lia|lia| |].
    - intros k Hk N0 N1. unfold colop, rowop. replace (k =? 0) with false by (symmetry; apply Nat.eqb_neq; exact N0). replace (k =? D1) with false by (symmetry; apply Nat.eqb_neq; exact N1). reflexivity.
    - unfold colop, rowop. rewrite Nat.eqb_refl. replace (D1 =? 0) with false by (symmetry; apply Nat.eqb_neq; lia). rewrite Nat.eqb_refl. ring.
  Qed.
  Lemma rowop_mmul M M' i j : mmul D (rowop M) M' i j = rowop (mmul D M M') i j.
  Proof.
    unfold mmul, rowop. destruct (i =? 0); [|destruct (i =? D1); [|reflexivity]].
    - replace (ropp (bsum D (fun k => smul (M D1 k) (M' k j)))) with (smul (ropp s1) (bsum D (fun k => smul (M D1 k) (M' k j)))) by ring.
      rewrite <- bsum_mul_l, <- !(bsum_add K). apply bsum_ext. intros; ring.
    - replace (ropp (bsum D (fun k => smul (M 0 k) (M' k j)))) with (smul (ropp s1) (bsum D (fun k => smul (M 0 k) (M' k j)))) by ring.
      rewrite <- bsum_mul_l, <- !(bsum_add K). apply bsum_ext. intros; ring.
  Qed.
  Lemma colop_mmul M M' i j : mmul D M (colop M') i j = colop (mmul D M M') i j.
  Proof.
    unfold mmul, colop. destruct (j =? 0); [|destruct (j =? D1); [|reflexivity]]; rewrite <- !(bsum_add K); apply bsum_ext; intros; ring.
  Qed.
  Lemma rowop_ext M M' i j : (forall k, M k j = M' k j) -> rowop M i j = rowop M' i j.
  Proof. intros H. unfold rowop. rewrite !H. reflexivity. Qed.
  Lemma colop_ext M M' i j : (forall k, M i k = M' i k) -> colop M i j = colop M' i j.
  Proof. intros H. unfold colop. rewrite !H. reflexivity. Qed.
  Lemma colop_rowop M i j : colop (rowop M) i j = rowop (colop M) i j.
  Proof. unfold colop, rowop. destruct (j =? 0), (i =? 0); try reflexivity; destruct (j =? D1), (i =? D1); try reflexivity; ring. Qed.
  Lemma mix_mmul A B A' B' i j : mmul D (mix A B) (mix A' B') i j = mix (mmul D1 A A') (mmul D2 B B') i j.
  Proof.
    unfold mix. rewrite (mmul_ext K D _ (colop (rowop (dsum A B))) _ (rowop (colop (dsum A' B')))) by (intros; try reflexivity; apply colop_rowop).
    rewrite cancel, rowop_mmul, colop_rowop. apply rowop_ext. intros k. rewrite colop_mmul. apply colop_ext. intros l. apply dsum_mmul.
  Qed.
  Lemma mix_00 A B : mix A B 0 0 = sadd (sadd (A 0 0) (A 0 0)) (ropp (B 0 0)).
  Proof.
    unfold mix, colop, rowop. cbn [Nat.eqb]. unfold dsum. rewrite (lt_true 0 D1) by exact H1. rewrite (lt_false D1 D1) by lia. rewrite Nat.sub_diag. ring.
  Qed.
  Lemma rowop_lin F (v : nat -> K) (M : nat -> mat K) i j : bsum F (fun k => smul (v k) (rowop (M k) i j)) = rowop (fun i j => bsum F (fun k => smul (v k) (M k i j))) i j.
  Proof.
    unfold rowop. destruct (i =? 0); [|destruct (i =? D1); [|reflexivity]].
    - replace (ropp (bsum F (fun k => smul (v k) (M k D1 j)))) with (smul (ropp s1) (bsum F (fun k => smul (v k) (M k D1 j)))) by ring.
      rewrite <- bsum_mul_l, <- !(bsum_add K). apply bsum_ext. intros; ring.
    - replace (ropp (bsum F (fun k => smul (v k) (M k 0 j)))) with (smul (ropp s1) (bsum F (fun k => smul (v k) (M k 0 j)))) by ring.
      rewrite <- bsum_mul_l, <- !(bsum_add K). apply bsum_ext. intros; ring.
  Qed.
  Lemma colop_lin F (v : nat -> K) (M : nat -> mat K) i j : bsum F (fun k => smul (v k) (colop (M k) i j)) = colop (fun i j => bsum F (fun k => smul (v k) (M k i j))) i j.
  Proof.
    unfold colop. destruct (j =? 0); [|destruct (j =? D1); [|reflexivity]]; rewrite <- !(bsum_add K); apply bsum_ext; intros; ring.
  Qed.
  Lemma mix_lin F (v : nat -> K) (A B : nat -> mat K) i j :
    bsum F (fun k => smul (v k) (mix (A k) (B k) i j)) = mix (fun i j => bsum F (fun k => smul (v k) (A k i j))) (fun i j => bsum F (fun k => smul (v k) (B k i j))) i j.
  Proof.
    unfold mix. rewrite colop_lin. apply colop_ext. intros l. rewrite rowop_lin. apply rowop_ext. intros k. apply dsum_lin.
  Qed.
  Lemma mix_add A B A' B' i j : sadd (mix A B i j) (mix A' B' i j) = mix (fun i j => sadd (A i j) (A' i j)) (fun i j => sadd (B i j) (B' i j)) i j.
  Proof.
    unfold mix. transitivity (colop (rowop (fun i j => sadd (dsum A B i j) (dsum A' B' i j))) i j).
    - unfold colop, rowop. destruct (j =? 0), (i =? 0); try ring; destruct (j =? D1); try ring; destruct (i =? D1); ring.
    - apply colop_ext. intros l. apply rowop_ext. intros k. apply dsum_add.
  Qed.
  Lemma mix_ext A B A' B' i j : i < D -> j < D -> (forall i j, i < D1 -> j < D1 -> A i j = A' i j) -> (forall i j, i < D2 -> j < D2 -> B i j = B' i j) -> mix A B i j = mix A' B' i j.
  Proof.
    intros Hi Hj HA HB. assert (G : forall i j, i < D -> j < D -> dsum A B i j = dsum A' B' i j) by (intros; apply dsum_ext; assumption).
    unfold mix, colop, rowop. destruct (j =? 0); [|destruct (j =? D1)]; (destruct (i =? 0); [|destruct (i =? D1)]); rewrite ?G by lia; reflexivity.
  Qed.
End Direct.

(** ** MPS *)
Section SuperValue.
  Variable K : cring.
  Add Ring KrSu2 : (rth K).
  Variables (per : bool) (D1 D2 : nat).
  Notation D := (D1 + D2).
  Hypotheses (H1 : 0 < D1) (H2 : 0 < D2).
  Definition comb : mat K -> mat K -> mat K := if per then dsum K D1 else mix K D1.
  Lemma comb_mmul A B A' B' i j : mmul D (comb A B) (comb A' B') i j = comb (mmul D1 A A') (mmul D2 B B') i j.
  Proof. unfold comb. destruct per; [apply dsum_mmul|apply mix_mmul; assumption]. Qed.
  Lemma comb_ext A B A' B' i j : i < D -> j < D -> (forall i j, i < D1 -> j < D1 -> A i j = A' i j) -> (forall i j, i < D2 -> j < D2 -> B i j = B' i j) -> comb A B i j = comb A' B' i j.
  Proof. unfold comb. destruct per; [apply dsum_ext|apply mix_ext; assumption]. Qed.
  Lemma comb_lin F (v : nat -> K) (A B : nat -> mat K) i j :
    bsum F (fun k => smul (v k) (comb (A k) (B k) i j)) = comb (fun i j => bsum F (fun k => smul (v k) (A k i j))) (fun i j => bsum F (fun k => smul (v k) (B k i j))) i j.
  Proof. unfold comb. destruct per; [apply dsum_lin|apply mix_lin]. Qed.
  Lemma comb_add A B A' B' i j : sadd (comb A B i j) (comb A' B' i j) = comb (fun i j => sadd (A i j) (A' i j)) (fun i j => sadd (B i j) (B' i j)) i j.
  Proof. unfold comb. destruct per; [apply dsum_add|apply mix_add]. Qed.
  Definition combined (l : list (mat K * mat K * mat K)) : Prop := Forall (fun t => forall i j, i < D -> j < D -> snd t i j = comb (fst (fst t)) (snd (fst t)) i j) l.
  Definition part1 (l : list (mat K * mat K * mat K)) : list (nat * mat K) := map (fun t => (D1, fst (fst t))) l.
  Definition part2 (l : list (mat K * mat K * mat K)) : list (nat * mat K) := map (fun t => (D2, snd (fst t))) l.
  Definition both (l : list (mat K * mat K * mat K)) : list (nat * mat K) := map (fun t => (D, snd t)) l.
  Lemma comb_chain l : l <> [] -> combined l -> forall i j, i < D -> j < D -> chain (both l) i j = comb (chain (part1 l)) (chain (part2 l)) i j.
  Proof.
    intros Hne H. induction H as [|[[A B] M] l HM H IH]; [contradiction|]. intros i j Hi Hj. cbn [fst snd] in HM. unfold both, part1, part2. cbn [map fst snd].
    destruct l as [|t l].
    - cbn [map]. rewrite (chain_single K D M i j Hj), (HM i j Hi Hj). apply comb_ext; [exact Hi|exact Hj| |]; intros; symmetry; apply (chain_single K); assumption.
    - rewrite (chain_cons K). rewrite (mmul_ext K D M (comb A B) _ (comb (chain (part1 (t :: l))) (chain (part2 (t :: l))))).
      + rewrite comb_mmul. apply comb_ext; [exact Hi|exact Hj| |]; intros; symmetry; apply (chain_cons K).
      + intros k Hk. apply HM; assumption.
      + intros k Hk. apply IH; [discriminate|exact Hk|exact Hj].
  Qed.
  Lemma chain_mid_scale n (c : K) (M : mat K) a b i j : chain (a ++ (n, fun i j => smul c (M i j)) :: b) i j = smul c (chain (a ++ (n, M) :: b) i j).
  Proof.
    revert i. induction a as [|[n' N] a IH]; intros i; cbn [app]; rewrite !(chain_cons K); unfold mmul; rewrite <- bsum_mul_l; apply bsum_ext; intros k _; [ring|rewrite IH; ring].
  Qed.
  Lemma value_super N lab F (w1 w2 w' : weights K) x o (a b h c1 c2 : K) : lab <= N ->
    (per = true -> c1 = a /\ c2 = b) -> (per = false -> sadd h h = s1 /\ c1 = smul a h /\ c2 = ropp b) ->
    (forall s l r i, s < N -> w_core w' s l r i = comb (fun l r => w_core w1 s l r i) (fun l r => w_core w2 s l r i) l r) ->
    (forall s l r, s < N -> w_bias w' s l r = comb (w_bias w1 s) (w_bias w2 s) l r) ->
    (forall l r, w_out w' o l r = comb (fun l r => smul c1 (w_out w1 o l r)) (fun l r => smul c2 (w_out w2 o l r)) l r) ->
    value K per N lab D F w' x o = sadd (smul a (value K per N lab D1 F w1 x o)) (smul b (value K per N lab D2 F w2 x o)).
  Proof.
    intros Hle Hper Hopen Hc Hb Ho.
    set (site := fun s => (site_matrix F (w_core w1 s) (w_bias w1 s) (x s), site_matrix F (w_core w2 s) (w_bias w2 s) (x s), site_matrix F (w_core w' s) (w_bias w' s) (x s))).
    set (L := map site (seq 0 lab) ++ [((fun l r => smul c1 (w_out w1 o l r)), (fun l r => smul c2 (w_out w2 o l r)), w_out w' o)] ++ map site (seq lab (N - lab))).
    assert (HL : combined L).
    { assert (Hs : forall s, s < N -> forall l r, l < D -> r < D -> snd (site s) l r = comb (fst (fst (site s))) (snd (fst (site s))) l r).
      { intros s Hs l r Hl Hr. unfold site. cbn [fst snd]. unfold site_matrix. rewrite (Hb s l r Hs).
        rewrite (bsum_ext F _ (fun i => smul (x s i) (comb (fun l r => w_core w1 s l r i) (fun l r => w_core w2 s l r i) l r))) by (intros i Hi; rewrite (Hc s l r i Hs); reflexivity).
        rewrite comb_lin, comb_add. reflexivity. }
      unfold L, combined. apply Forall_app. split; [|apply Forall_app; split].
      - apply Forall_forall. intros t Ht. apply in_map_iff in Ht as (s & <- & Hin). apply in_seq in Hin. apply Hs. lia.
      - constructor; [|constructor]. intros l r _ _. cbn [fst snd]. apply Ho.
      - apply Forall_forall. intros t Ht. apply in_map_iff in Ht as (s & <- & Hin). apply in_seq in Hin. apply Hs. lia. }
    assert (Hne : L <> []) by (unfold L; intros E; apply app_eq_nil in E as [_ E]; discriminate E).
    assert (E0 : factors N lab D F w' x o = both L) by (unfold factors, both, L; rewrite !map_app, !map_map; reflexivity).
    assert (E1 : forall i j, chain (part1 L) i j = smul c1 (chain (factors N lab D1 F w1 x o) i j)).
    { intros i j. unfold part1, L. rewrite !map_app, !map_map. cbn [map fst snd app]. unfold factors. cbn [app]. rewrite <- chain_mid_scale. reflexivity. }
    assert (E2 : forall i j, chain (part2 L) i j = smul c2 (chain (factors N lab D2 F w2 x o) i j)).
    { intros i j. unfold part2, L. rewrite !map_app, !map_map. cbn [map fst snd app]. unfold factors. cbn [app]. rewrite <- chain_mid_scale. reflexivity. }
    pose proof (comb_chain L Hne HL) as HC. clear Hc Hb Ho HL Hne.
    unfold value, ring_value, train_value. rewrite E0. unfold comb in HC. destruct per.
    - destruct (Hper eq_refl) as [-> ->].
      transitivity (mtrace D (dsum K D1 (chain (part1 L)) (chain (part2 L)))); [unfold mtrace; apply bsum_ext; intros k Hk; apply HC; exact Hk|].
      rewrite (dsum_trace K D1 D2). unfold mtrace. rewrite <- !bsum_mul_l. f_equal; apply bsum_ext; intros k _; [apply E1|apply E2].
    - destruct (Hopen eq_refl) as (Hh & -> & ->). rewrite HC by lia. rewrite (mix_00 K D1 D2 H1 H2), E1, E2.
      assert (Eh : forall z : K, sadd (smul (smul a h) z) (smul (smul a h) z) = smul (sadd h h) (smul a z)) by (intros; ring).
      rewrite Eh, Hh. ring.
  Qed.
End SuperValue.

(** ** Any weights of the right form are the weights of some trained state *)
Section Realise.
  Variable K : cring.
  Add Ring KrSu3 : (rth K).
  Variables (core : nat -> nat -> nat -> nat -> K) (bias : bool -> mat K) (out : nat -> mat K).
  Definition put (first : bool) (st : nat) (m : module K) : module K :=
    match m with
    | InputRegion t ub b => InputRegion (mkT (shp t) (fun i => match i with [s; l; r; f] => core (st + s) l r f | _ => s0 end)) ub
        (option_map (fun b => mkT (shp b) (fun i => match i with [_; l; r] => bias first l r | _ => s0 end)) b)
    | OutputSite t => OutputSite (mkT (shp t) (fun i => match i with [o; l; r] => out o l r | _ => s0 end))
    | m => m
    end.
  Lemma put_trained D F n ub fi st l : region_list K n D F ub l -> Forall2 mod_trained l (map (put fi st) l).
  Proof.
    destruct n as [|n]; cbn [region_list]; [intros ->; constructor|]. intros (m & -> & t & b & -> & _). constructor; [|constructor].
    destruct b; constructor; reflexivity.
  Qed.
  Lemma put_bias D F fi st n ub m l r : region_shape K n D F ub m -> mod_bias (put fi st m) l r = if ub then bias fi l r else s0.
  Proof. intros (t & b & -> & _ & Hb). cbn [put]. destruct ub; [|destruct b; reflexivity]. destruct (Hb eq_refl) as (b' & -> & _). reflexivity. Qed.
  Lemma put_core D F fi st n ub m s l r i : region_shape K n D F ub m -> get (mod_tensor (put fi st m)) [s; l; r; i] = core (st + s) l r i.
  Proof. intros (t & b & -> & _). reflexivity. Qed.
  Lemma realise N O D F lab ub m0 : m_label m0 = lab -> lab <= N -> mps_form K N O D F lab ub (m_modules m0) -> exists mods, Forall2 mod_trained (m_modules m0) mods /\
    forall m, m_modules m = mods -> m_label m = lab ->
      (forall s l r i, s < N -> w_core (weights_of m) s l r i = core s l r i) /\
      (forall s l r, s < N -> w_bias (weights_of m) s l r = if ub then bias (s <? lab) l r else s0) /\
      (forall o l r, w_out (weights_of m) o l r = out o l r).
  Proof.
    intros Hlab Hle (l & t & r & Em & Hl & Ht & Hr).
    exists (map (put true 0) l ++ [put true 0 (OutputSite t)] ++ map (put false lab) r). set (mods := map (put true 0) l ++ [put true 0 (OutputSite t)] ++ map (put false lab) r). split.
    - rewrite Em. apply Forall2_app; [apply (put_trained D F lab ub true 0); exact Hl|].
      apply Forall2_app; [|apply (put_trained D F (N - lab) ub false lab); exact Hr]. constructor; [constructor; reflexivity|constructor].
    - intros m Emod El. unfold weights_of, first_mod, last_mod, out_mod. cbn [w_core w_bias w_out]. rewrite El, Emod.
      assert (Hout : nth (if 0 <? lab then 1 else 0) mods (OutputSite (no_tensor K)) = put true 0 (OutputSite t)).
      { unfold mods. destruct (Nat.ltb_spec 0 lab) as [H|H].
        - destruct lab as [|n]; [lia|]. destruct Hl as (m1 & -> & Hm). reflexivity.
        - assert (lab = 0) as E0 by lia. rewrite E0 in Hl. cbn [region_list] in Hl. rewrite Hl. reflexivity. }
      assert (Hf : 0 < lab -> exists m, region_shape K lab D F ub m /\ nth 0 mods (OutputSite (no_tensor K)) = put true 0 m).
      { intros H. unfold mods. destruct lab as [|n]; [lia|]. destruct Hl as (m1 & -> & Hm). exists m1. split; [exact Hm|]. reflexivity. }
      assert (Hlst : 0 < N - lab -> exists m, region_shape K (N - lab) D F ub m /\ last mods (OutputSite (no_tensor K)) = put false lab m).
      { intros H. unfold mods. destruct (N - lab) as [|n]; [lia|]. destruct Hr as (m1 & -> & Hm). exists m1. split; [exact Hm|]. rewrite app_assoc. apply last_last. }
      split; [|split].
      + intros s l' r' i Hs. destruct (Nat.ltb_spec s lab) as [H|H].
        * destruct (Hf ltac:(lia)) as (m1 & Hm & ->). rewrite (put_core D F true 0 _ _ _ _ _ _ _ Hm). reflexivity.
        * destruct (Hlst ltac:(lia)) as (m1 & Hm & ->). rewrite (put_core D F false lab _ _ _ _ _ _ _ Hm). replace (lab + (s - lab)) with s by lia. reflexivity.
      + intros s l' r' Hs. destruct (Nat.ltb_spec s lab) as [H|H].
        * destruct (Hf ltac:(lia)) as (m1 & Hm & ->). rewrite (put_bias D F true 0 _ _ _ _ _ Hm). reflexivity.
        * destruct (Hlst ltac:(lia)) as (m1 & Hm & ->). rewrite (put_bias D F false lab _ _ _ _ _ Hm).
          reflexivity.
      + intros o l' r'. rewrite Hout. reflexivity.
  Qed.
End Realise.

Section SuperMps.
  Variable K : cring.
  Add Ring KrSu4 : (rth K).
  (** the outcomes of the same call on two models and on their combination with coefficients a, b *)
  Definition sum_call (a b : K) (r1 r2 r' : res (tensor K) * option nat) : Prop :=
    match r1 with
    | (Ok t1, g) => exists t2 t', r2 = (Ok t2, g) /\ r' = (Ok t', g) /\ shp t2 = shp t1 /\ shp t' = shp t1 /\
        forall i, Forall2 lt i (shp t1) -> get t' i = sadd (smul a (get t1 i)) (smul b (get t2 i))
    | (Err e, _) => fst r2 = Err e /\ fst r' = Err e
    end.
  Lemma comb_zero per D1 i j : comb K per D1 no_bias no_bias i j = s0.
  Proof.
    assert (G : forall i j, dsum K D1 no_bias no_bias i j = s0) by (intros; unfold dsum, no_bias; destruct (_ <? _), (_ <? _); reflexivity).
    unfold comb. destruct per; [apply G|]. unfold mix, colop, rowop. rewrite !G. destruct (j =? 0), (i =? 0), (j =? D1), (i =? D1); ring.
  Qed.
  Lemma comb_zero_gen per D1 (A B : mat K) i j : (forall i j, A i j = s0) -> (forall i j, B i j = s0) -> comb K per D1 A B i j = s0.
  Proof.
    intros HA HB. assert (G : forall i j, dsum K D1 A B i j = s0) by (intros; unfold dsum; destruct (_ <? _), (_ <? _); rewrite ?HA, ?HB; reflexivity).
    unfold comb. destruct per; [apply G|]. unfold mix, colop, rowop. rewrite !G. destruct (j =? 0), (i =? 0), (j =? D1), (i =? D1); ring.
  Qed.
  Lemma unbiased N O D F lab m : lab <= N -> m_label m = lab -> mps_form K N O D F lab false (m_modules m) -> forall s l r, s < N -> w_bias (weights_of m) s l r = s0.
  Proof.
    intros Hle El (la & t & ra & Em & Hl & _ & Hr) s l r Hs. unfold weights_of, first_mod, last_mod. cbn [w_bias]. rewrite El, Em.
    destruct (Nat.ltb_spec s lab) as [H|H].
    - destruct lab as [|n]; [lia|]. destruct Hl as (mo & -> & t' & b' & -> & _). destruct b'; reflexivity.
    - destruct (N - lab) as [|n] eqn:E; [lia|]. destruct Hr as (mo & -> & t' & b' & -> & _). rewrite app_assoc, last_last. destruct b'; reflexivity.
  Qed.
  Theorem C115_mps N O F per D1 D2 par1 par2 par' label path std1 std2 std' ub1 ub2 ub' rnd1 rnd2 rnd' m01 m1 m02 m2 m0' (a b : K) :
    mps_init K N O D1 F per par1 label path std1 ub1 rnd1 = Ok m01 -> trained m01 m1 ->
    mps_init K N O D2 F per par2 label path std2 ub2 rnd2 = Ok m02 -> trained m02 m2 ->
    mps_init K N O (D1 + D2) F per par' label path std' ub' rnd' = Ok m0' ->
    0 < D1 -> 0 < D2 -> m_fmap m1 = m_fmap m2 -> (ub' = false -> ub1 = false /\ ub2 = false) ->
    (per = false -> exists h : K, sadd h h = s1) ->
    exists m', trained m0' m' /\ m_fmap m' = m_fmap m1 /\
      forall x g, sum_call a b (mps_forward K m1 x g) (mps_forward K m2 x g) (mps_forward K m' x g).
  Proof.
    intros Hi1 Ht1 Hi2 Ht2 Hi' HD1 HD2 Hfm Hub Hhalf.
    pose proof (init_built K _ _ _ _ _ _ _ _ _ _ _ _ _ Hi1 Ht1) as Hb1. pose proof (init_built K _ _ _ _ _ _ _ _ _ _ _ _ _ Hi2 Ht2) as Hb2.
    assert (T0 : trained m0' m0') by (eapply init_trained; exact Hi').
    pose proof (init_built K _ _ _ _ _ _ _ _ _ _ _ _ _ Hi' T0) as Hb0.
    set (lab := match label with None => N / 2 | Some z => Z.to_nat z end) in *.
    assert (Hc : exists c1 c2 h : K, (per = true -> c1 = a /\ c2 = b) /\ (per = false -> sadd h h = s1 /\ c1 = smul a h /\ c2 = ropp b)).
    { destruct per; [exists a, b, s0; split; [auto|discriminate]|]. destruct (Hhalf eq_refl) as (h & Eh). exists (smul a h), (ropp b), h. split; [discriminate|auto]. }
    destruct Hc as (c1 & c2 & h & Hc1 & Hc2).
    pose proof (b_le K _ _ _ _ _ _ _ _ _ _ Hb1) as Hle. pose proof (b_lab K _ _ _ _ _ _ _ _ _ _ Hb1) as El1. pose proof (b_lab K _ _ _ _ _ _ _ _ _ _ Hb2) as El2. pose proof (b_lab K _ _ _ _ _ _ _ _ _ _ Hb0) as El0.
    destruct (realise K
      (fun s l r i => comb K per D1 (fun l r => w_core (weights_of m1) s l r i) (fun l r => w_core (weights_of m2) s l r i) l r)
      (fun fi => if fi then comb K per D1 (mod_bias (first_mod m1)) (mod_bias (first_mod m2)) else comb K per D1 (mod_bias (last_mod m1)) (mod_bias (last_mod m2)))
      (fun o => comb K per D1 (fun l r => smul c1 (w_out (weights_of m1) o l r)) (fun l r => smul c2 (w_out (weights_of m2) o l r)))
      N O (D1 + D2) F lab ub' m0' El0 Hle (b_form K _ _ _ _ _ _ _ _ _ _ Hb0)) as (mods & Hmods & HW).
    set (m' := mkMps K (m_input m0') (m_output m0') (m_bond m0') (m_feature m0') (m_periodic m0') (m_parallel m0') (m_label m0') (m_path m0') (m_use_bias m0') mods (m_fmap m1)).
    assert (Htr : trained m0' m') by (split; [exact Hmods|reflexivity]).
    exists m'. split; [exact Htr|]. split; [reflexivity|].
    destruct (HW m' eq_refl El0) as (W1 & W2 & W3). clear HW.
    pose proof (init_built K _ _ _ _ _ _ _ _ _ _ _ _ _ Hi' Htr) as Hb'. fold lab in Hb'.
    assert (V : forall x o, value K per N lab (D1 + D2) F (weights_of m') x o = sadd (smul a (value K per N lab D1 F (weights_of m1) x o)) (smul b (value K per N lab D2 F (weights_of m2) x o))).
    { intros x o. apply (value_super K per D1 D2 HD1 HD2 N lab F _ _ _ x o a b h c1 c2 Hle Hc1 Hc2).
      - intros s l r i Hs. rewrite (W1 s l r i Hs). reflexivity.
      - intros s l r Hs. rewrite (W2 s l r Hs). destruct ub'.
        + unfold weights_of. cbn [w_bias]. rewrite El1, El2. destruct (s <? lab); reflexivity.
        + destruct (Hub eq_refl) as [E1 E2]. symmetry. apply comb_zero_gen; intros i j.
          * apply (unbiased N O D1 F lab m1 Hle El1); [|exact Hs]. pose proof (b_form K _ _ _ _ _ _ _ _ _ _ Hb1) as Q. rewrite E1 in Q. exact Q.
          * apply (unbiased N O D2 F lab m2 Hle El2); [|exact Hs]. pose proof (b_form K _ _ _ _ _ _ _ _ _ _ Hb2) as Q. rewrite E2 in Q. exact Q.
      - intros l r. apply W3. }
    assert (Er1 : m_path m1 = m_path m') by (rewrite (b_path K _ _ _ _ _ _ _ _ _ _ Hb1), (b_path K _ _ _ _ _ _ _ _ _ _ Hb'); reflexivity).
    assert (Er2 : m_path m2 = m_path m') by (rewrite (b_path K _ _ _ _ _ _ _ _ _ _ Hb2), (b_path K _ _ _ _ _ _ _ _ _ _ Hb'); reflexivity).
    assert (Ee1 : forall y, mps_embed K m1 y = mps_embed K m' y).
    { intros y. unfold mps_embed. rewrite (b_in K _ _ _ _ _ _ _ _ _ _ Hb1), (b_in K _ _ _ _ _ _ _ _ _ _ Hb'), (b_feat K _ _ _ _ _ _ _ _ _ _ Hb1), (b_feat K _ _ _ _ _ _ _ _ _ _ Hb'). reflexivity. }
    assert (Ee2 : forall y, mps_embed K m2 y = mps_embed K m' y).
    { intros y. unfold mps_embed. rewrite (b_in K _ _ _ _ _ _ _ _ _ _ Hb2), (b_in K _ _ _ _ _ _ _ _ _ _ Hb'), (b_feat K _ _ _ _ _ _ _ _ _ _ Hb2), (b_feat K _ _ _ _ _ _ _ _ _ _ Hb'). cbn [m_fmap m']. rewrite Hfm. reflexivity. }
    intros x g. unfold mps_forward, mbind, lift. rewrite Er1, Er2. destruct (route K (m_path m') x) as [y|ex]; [|split; reflexivity].
    rewrite Ee1, Ee2. destruct (mps_embed K m' y) as [e|ex] eqn:E; [|split; reflexivity].
    destruct (embed_dims K m' y e E) as (B & He). rewrite (b_in K _ _ _ _ _ _ _ _ _ _ Hb'), (b_feat K _ _ _ _ _ _ _ _ _ _ Hb') in He.
    pose proof (exact_region K _ _ _ _ _ _ _ _ _ _ Hb1 e B g He) as X1. pose proof (exact_region K _ _ _ _ _ _ _ _ _ _ Hb2 e B g He) as X2. pose proof (exact_region K _ _ _ _ _ _ _ _ _ _ Hb' e B g He) as X'.
    rewrite (b_per K _ _ _ _ _ _ _ _ _ _ Hb1), (b_par K _ _ _ _ _ _ _ _ _ _ Hb1), (b_per K _ _ _ _ _ _ _ _ _ _ Hb2), (b_par K _ _ _ _ _ _ _ _ _ _ Hb2), (b_per K _ _ _ _ _ _ _ _ _ _ Hb'), (b_par K _ _ _ _ _ _ _ _ _ _ Hb').
    assert (Ex : forall D, 0 < D -> expected N lab D per g B = expected N lab 1 per g B).
    { intros D HD. unfold expected. replace (D =? 0) with false; [reflexivity|]. symmetry. apply Nat.eqb_neq. lia. }
    rewrite (Ex D1) in X1 by lia. rewrite (Ex D2) in X2 by lia. rewrite (Ex (D1 + D2)) in X' by lia. destruct (expected N lab 1 per g B) as [n|ex].
    - destruct (X1 par1) as (T1 & E1 & S1 & G1). destruct (X2 par2) as (T2 & E2 & S2 & G2). destruct (X' par') as (T' & E' & S' & G'). rewrite E1, E2, E'. cbn [sum_call].
      exists T2, T'. split; [reflexivity|]. split; [reflexivity|]. split; [congruence|]. split; [congruence|].
      intros i Hii. rewrite S1 in Hii. destruct (index2 _ _ _ Hii) as (r & o & -> & Hr & Ho). rewrite G1, G2, G' by assumption. apply V.
    - destruct X1 as (g1 & X1). destruct X2 as (g2 & X2). destruct X' as (g' & X'). rewrite X1, X2, X'. split; reflexivity.
  Qed.
End SuperMps.

Section SuperTi.
  Variable K : cring.
  Add Ring KrSu5 : (rth K).
  Lemma sandwich_scale_r n m (v : vec K) (M : mat K) c (w : vec K) : sandwich n m v M (fun r => smul c (w r)) = smul c (sandwich n m v M w).
  Proof.
    unfold sandwich. rewrite <- bsum_mul_l. apply bsum_ext. intros i _. rewrite <- bsum_mul_l. apply bsum_ext. intros j _. ring.
  Qed.
  Definition super_ti (D1 D2 F O : nat) (fb : bool) (a b : K) (m0' m1 m2 : ti_mps K) : ti_mps K :=
    mkTi K (t_output m0') (t_bond m0') (t_feature m0') (t_parallel m0') (t_use_bias m0') (t_fixed_bias m0')
      (mkT [D1 + D2; D1 + D2; F] (fun i => match i with [l; r; f] => dsum K D1 (fun l r => get (t_core m1) [l; r; f]) (fun l r => get (t_core m2) [l; r; f]) l r | _ => s0 end))
      (mkT [D1 + D2] (fun i => match i with [l] => dvec K D1 (fun l => get (t_vec m1) [l]) (fun l => get (t_vec m2) [l]) l | _ => s0 end))
      (mkT [D1 + D2; O] (fun i => match i with [r; o] => dvec K D1 (fun r => smul a (get (t_mat m1) [r; o])) (fun r => smul b (get (t_mat m2) [r; o])) r | _ => s0 end))
      (option_map (fun b0 => if fb then b0 else mkT [D1 + D2; D1 + D2] (fun i => match i with [l; r] => dsum K D1 (ti_bias_mat m1) (ti_bias_mat m2) l r | _ => s0 end)) (t_bias m0'))
      (t_fmap m1).
  Theorem C115_ti O F D1 D2 par1 par2 par' std1 std2 std' ub fb over1 over2 over' rnd1 rnd2 rnd' m01 m1 m02 m2 m0' (a b : K) :
    ti_init K O D1 F par1 false std1 ub fb over1 rnd1 = Ok m01 -> ti_trained m01 m1 ->
    ti_init K O D2 F par2 false std2 ub fb over2 rnd2 = Ok m02 -> ti_trained m02 m2 ->
    ti_init K O (D1 + D2) F par' false std' ub fb over' rnd' = Ok m0' ->
    0 < D1 -> 0 < D2 -> t_fmap m1 = t_fmap m2 ->
    exists m', ti_trained m0' m' /\ t_fmap m' = t_fmap m1 /\
      (forall inp, ti_format K m1 inp = ti_format K m' inp /\ ti_format K m2 inp = ti_format K m' inp) /\
      forall inp g, (forall x, ti_format K m' inp = Ok x -> exists B n, 1 <= n /\ shp x = [B; n; F]) ->
        sum_call K a b (ti_forward K m1 inp g) (ti_forward K m2 inp g) (ti_forward K m' inp g).
  Proof.
    intros Hi1 Ht1 Hi2 Ht2 Hi' HD1 HD2 Hfm. set (m' := super_ti D1 D2 F O fb a b m0' m1 m2).
    pose proof (ti_init_built K _ _ _ _ _ _ _ _ _ _ _ _ Hi1 Ht1) as Hb1. pose proof (ti_init_built K _ _ _ _ _ _ _ _ _ _ _ _ Hi2 Ht2) as Hb2.
    destruct (C38_constructor K O (D1 + D2) F par' false std' ub fb over' rnd' ltac:(discriminate)) as (mm & E1 & T0 & Hc & Hv & Hm & _).
    rewrite Hi' in E1. injection E1 as <-.
    pose proof (ti_init_built K _ _ _ _ _ _ _ _ _ _ _ _ Hi' T0) as Hb0.
    assert (Htr : ti_trained m0' m').
    { destruct Hb0. unfold ti_trained, m', super_ti, same_shape. cbn [t_core t_vec t_mat t_bias t_fmap]. split; [|split; [|split; [|split; [|reflexivity]]]]; try assumption.
      destruct (t_bias m0') as [b0|] eqn:Eb0; cbn [option_map]; [|exact Logic.I]. destruct ub; [|discriminate tb_bias].
      destruct tb_bias as (b0' & E & S0 & G0). injection E as <-. rewrite tb_fb. split; [destruct fb; [reflexivity|exact S0]|]. intros ->. reflexivity. }
    exists m'. split; [exact Htr|]. split; [reflexivity|].
    pose proof (ti_init_built K _ _ _ _ _ _ _ _ _ _ _ _ Hi' Htr) as Hb'.
    assert (Efmt : forall m D, ti_built K O D F (t_parallel m) ub fb m -> t_fmap m = t_fmap m1 -> forall inp, ti_format K m inp = ti_format K m' inp).
    { intros m D Hm1 Ef inp. destruct Hm1, Hb'. assert (Q : forall y, ti_embed K m' y = ti_embed K m y) by (intros y; unfold ti_embed; rewrite tb_feat, tb_feat0, Ef; reflexivity).
      destruct inp as [x|l]; cbn [ti_format].
      - rewrite Q, tb_feat, tb_feat0. reflexivity.
      - destruct l as [|s l]; [reflexivity|]. rewrite tb_feat, tb_feat0, tb_ub, tb_ub0, tb_fb, tb_fb0.
        destruct (assert_ _); cbn [rbind]; [|reflexivity]. destruct (assert_ _); cbn [rbind]; [|reflexivity]. destruct (assert_ _); cbn [rbind]; [|reflexivity].
        destruct (_ && _); [reflexivity|]. match goal with |- rbind ?e _ = _ => destruct e as [bb|]; cbn [rbind]; [|reflexivity] end. rewrite Q. reflexivity. }
    pose proof (Efmt m1 D1 ltac:(rewrite (tb_par K _ _ _ _ _ _ _ Hb1); exact Hb1) eq_refl) as F1. pose proof (Efmt m2 D2 ltac:(rewrite (tb_par K _ _ _ _ _ _ _ Hb2); exact Hb2) (eq_sym Hfm)) as F2.
    split; [intros inp; split; [apply F1|apply F2]|].
    intros inp g Hin. rewrite !ti_forward_eq, F1, F2. destruct (ti_format K m' inp) as [x|ex]; [|split; reflexivity].
    destruct (Hin x eq_refl) as (B & n & Hn & Hx).
    destruct (after_format_value K _ _ _ _ _ _ _ x B n g Hb1 Hx Hn) as (T1 & E1 & S1 & G1).
    destruct (after_format_value K _ _ _ _ _ _ _ x B n g Hb2 Hx Hn) as (T2 & E2 & S2 & G2).
    destruct (after_format_value K _ _ _ _ _ _ _ x B n g Hb' Hx Hn) as (T3 & E3 & S3 & G3).
    rewrite E1, E2, E3. cbn [sum_call]. exists T2, T3. split; [reflexivity|]. split; [reflexivity|]. split; [congruence|]. split; [congruence|].
    intros i Hii. rewrite S1 in Hii. destruct (index2 _ _ _ Hii) as (r & o & -> & Hr & Ho). rewrite G1, G2, G3 by assumption.
    set (xv := fun s i => get x [r; s; i]). clear G1 G2 G3.
    assert (B1 : t_bond m1 = D1 /\ t_feature m1 = F) by (destruct Hb1; auto). assert (B2 : t_bond m2 = D2 /\ t_feature m2 = F) by (destruct Hb2; auto). assert (B3 : t_bond m' = D1 + D2 /\ t_feature m' = F) by (destruct Hb'; auto).
    destruct B1 as [B1 F1']. destruct B2 as [B2 F2']. destruct B3 as [B3 F3'].
    assert (Ebm : forall l r, l < D1 + D2 -> r < D1 + D2 -> ti_bias_mat m' l r = dsum K D1 (ti_bias_mat m1) (ti_bias_mat m2) l r).
    { destruct Hb1, Hb2. pose proof Hb0 as Hb0'. destruct Hb0'. intros l r' Hl Hr'. unfold ti_bias_mat at 1. unfold m', super_ti. cbn [t_use_bias t_bias]. rewrite tb_ub1. destruct ub.
      - destruct tb_bias1 as (b0 & E & S0 & G0). rewrite E. cbn [option_map]. destruct fb; [|reflexivity]. rewrite (G0 eq_refl l r').
        unfold ti_bias_mat. rewrite tb_ub, tb_ub0. destruct tb_bias as (bb1 & -> & _ & GG1). destruct tb_bias0 as (bb2 & -> & _ & GG2).
        refine (eq_trans (eq_sym (dsum_delta K D1 l r')) _). unfold dsum. destruct (l <? D1), (r' <? D1); try reflexivity; symmetry; [apply GG1|apply GG2]; reflexivity.
      - unfold ti_bias_mat. rewrite tb_ub, tb_ub0. unfold dsum, no_bias. destruct (_ <? _), (_ <? _); reflexivity. }
    unfold ti_value. rewrite B1, B2, B3, F1', F2', F3'.
    set (S1' := fun s => site_matrix F (fun l r i => get (t_core m1) [l; r; i]) (ti_bias_mat m1) (xv s)).
    set (S2' := fun s => site_matrix F (fun l r i => get (t_core m2) [l; r; i]) (ti_bias_mat m2) (xv s)).
    set (S3' := fun s => site_matrix F (fun l r i => get (t_core m') [l; r; i]) (ti_bias_mat m') (xv s)).
    set (L := map (fun s => (S1' s, S2' s, S3' s)) (seq 0 n)).
    assert (HL : combined K true D1 D2 L).
    { apply Forall_forall. intros t Hts l r' Hl Hr'. apply in_map_iff in Hts as (s & <- & _). cbn [fst snd comb]. unfold S1', S2', S3', site_matrix. rewrite (Ebm l r' Hl Hr').
      unfold comb. rewrite <- (dsum_add K), <- (dsum_lin K). reflexivity. }
    assert (Hne : L <> []) by (unfold L; destruct n; [lia|discriminate]).
    pose proof (comb_chain K true D1 D2 HD1 HD2 L Hne HL) as HC.
    unfold both, part1, part2, L in HC. rewrite !map_map in HC. cbn [fst snd comb] in HC.
    rewrite <- !sandwich_scale_r. refine (eq_trans _ (dsum_sandwich K D1 D2 _ _ _ _ _ _)). unfold sandwich.
    apply bsum_ext. intros i Hi0. apply bsum_ext. intros j Hj0. exact (f_equal (fun z => smul _ (smul z _)) (HC i j Hi0 Hj0)).
  Qed.
End SuperTi.

(** ** ProbMPS and ProbUnifMPS *)
Section SuperProb.
  Variable K : numfield.
  Add Ring KrSu6 : (rth K).
  Variables (D1 D2 : nat) (a b : K).
  Hypotheses (H1 : 0 < D1) (H2 : 0 < D2).
  Definition super_prob (uniform : bool) (m1 m2 : pmps K) : pmps K := {|
    pm_core := if uniform then mkT [size 0 (pm_core K m1); D1 + D2; D1 + D2] (fun i => match i with [k; l; r] => dsum K D1 (entry (pm_core K m1) true 0 k) (entry (pm_core K m2) true 0 k) l r | _ => s0 end)
               else mkT [size 0 (pm_core K m1); size 1 (pm_core K m1); D1 + D2; D1 + D2] (fun i => match i with [t; k; l; r] => dsum K D1 (entry (pm_core K m1) false t k) (entry (pm_core K m2) false t k) l r | _ => s0 end);
    pm_edge := mkT [2; D1 + D2] (fun i => match i with
      | [0; j] => dvec K D1 (edge_at (pm_edge K m1) 0) (edge_at (pm_edge K m2) 0) j
      | [_; j] => dvec K D1 (fun j => smul a (edge_at (pm_edge K m1) 1 j)) (fun j => smul b (edge_at (pm_edge K m2) 1 j)) j
      | _ => s0 end);
    pm_bias := match pm_bias K m1, pm_bias K m2 with
      | None, None => None
      | _, _ => Some (mkT [D1 + D2; D1 + D2] (fun i => match i with [l; r] => dsum K D1 (bias_at (pm_bias K m1)) (bias_at (pm_bias K m2)) l r | _ => s0 end))
      end;
    pm_emb := None |}.
  Lemma super_entry uniform m1 m2 t k i j : entry (pm_core K (super_prob uniform m1 m2)) uniform t k i j = dsum K D1 (entry (pm_core K m1) uniform t k) (entry (pm_core K m2) uniform t k) i j.
  Proof. unfold entry at 1. destruct uniform; reflexivity. Qed.
  Lemma super_bias uniform m1 m2 i j : bias_at (pm_bias K (super_prob uniform m1 m2)) i j = dsum K D1 (bias_at (pm_bias K m1)) (bias_at (pm_bias K m2)) i j.
  Proof. cbn [pm_bias super_prob]. destruct (pm_bias K m1), (pm_bias K m2); try reflexivity. cbn [bias_at]. unfold dsum. destruct (_ <? _), (_ <? _); reflexivity. Qed.
  Lemma super_letter uniform m1 m2 t k i j : letter_site (pm_core K (super_prob uniform m1 m2)) uniform (pm_bias K (super_prob uniform m1 m2)) t k i j
    = dsum K D1 (letter_site (pm_core K m1) uniform (pm_bias K m1) t k) (letter_site (pm_core K m2) uniform (pm_bias K m2) t k) i j.
  Proof. unfold letter_site at 1. rewrite super_entry, super_bias. apply (dsum_add K). Qed.
  Lemma super_vec uniform m1 m2 d t phi i j : vec_site d (pm_core K (super_prob uniform m1 m2)) uniform (pm_bias K (super_prob uniform m1 m2)) t phi i j
    = dsum K D1 (vec_site d (pm_core K m1) uniform (pm_bias K m1) t phi) (vec_site d (pm_core K m2) uniform (pm_bias K m2) t phi) i j.
  Proof.
    unfold vec_site at 1. rewrite super_bias. rewrite (bsum_ext d _ (fun k => smul (phi k) (dsum K D1 (entry (pm_core K m1) uniform t k) (entry (pm_core K m2) uniform t k) i j))) by (intros; rewrite super_entry; reflexivity).
    rewrite (dsum_lin K), (dsum_add K). reflexivity.
  Qed.
  Lemma super_sites {X} uniform m1 m2 (s1' s2' s' : nat -> X -> mat K) xs : xs <> [] -> (forall t x i j, s' t x i j = dsum K D1 (s1' t x) (s2' t x) i j) ->
    amplitude (D1 + D2) (edge_at (pm_edge K (super_prob uniform m1 m2)) 0) (edge_at (pm_edge K (super_prob uniform m1 m2)) 1) s' xs
    = sadd (smul a (amplitude D1 (edge_at (pm_edge K m1) 0) (edge_at (pm_edge K m1) 1) s1' xs)) (smul b (amplitude D2 (edge_at (pm_edge K m2) 0) (edge_at (pm_edge K m2) 1) s2' xs)).
  Proof.
    intros Hne Hs. unfold amplitude.
    assert (G : forall t, let L := (fix go t xs := match xs with [] => [] | x :: r => (s1' t x, s2' t x, s' t x) :: go (Datatypes.S t) r end) t xs in
       combined K true D1 D2 L /\ both K D1 D2 L = sites (D1 + D2) s' t xs /\ part1 K D1 L = sites D1 s1' t xs /\ part2 K D2 L = sites D2 s2' t xs /\ (xs <> [] -> L <> [])).
    { clear Hne. induction xs as [|x xs IH]; intros t; cbv zeta.
      - repeat split; try constructor. intros E; contradiction E; reflexivity.
      - destruct (IH (Datatypes.S t)) as (A1 & A2 & A3 & A4 & _). split; [constructor; [|exact A1]; intros i j _ _; cbn [fst snd comb]; apply Hs|].
        unfold both, part1, part2 in *. cbn [map fst snd sites]. rewrite A2, A3, A4. repeat split; discriminate. }
    specialize (G 0). set (L := (fix go t xs := match xs with [] => [] | x :: r => (s1' t x, s2' t x, s' t x) :: go (Datatypes.S t) r end) 0 xs) in G. cbv zeta in G.
    destruct G as (A1 & A2 & A3 & A4 & A5). pose proof (comb_chain K true D1 D2 H1 H2 L (A5 Hne) A1) as HC. rewrite A2, A3, A4 in HC.
    rewrite <- !(sandwich_scale_r K). refine (eq_trans _ (dsum_sandwich K D1 D2 _ _ _ _ _ _)). unfold sandwich.
    apply bsum_ext. intros i Hi. apply bsum_ext. intros j Hj. exact (f_equal (fun z => smul _ (smul z _)) (HC i j Hi Hj)).
  Qed.
  Lemma super_amp uniform m1 m2 n d (x : tin K) r : 0 < n ->
    psi K uniform (super_prob uniform m1 m2) n d (D1 + D2) x r = sadd (smul a (psi K uniform m1 n d D1 x r)) (smul b (psi K uniform m2 n d D2 x r)).
  Proof.
    intros Hn. unfold psi, row_amp. destruct x as [ix|v].
    - apply super_sites; [|intros; apply super_letter]. unfold row_letters. destruct n; [lia|discriminate].
    - apply super_sites; [|intros; apply super_vec]. unfold row_vectors. destruct n; [lia|discriminate].
  Qed.
  Lemma super_shapes uniform m1 m2 n d : shapes_of K uniform m1 n d D1 -> shapes_of K uniform m2 n d D2 -> shapes_of K uniform (super_prob uniform m1 m2) n d (D1 + D2).
  Proof.
    intros Hs1 Hs2. destruct uniform; cbn [shapes_of] in *; [unfold shapes_unif in *|unfold shapes_fixed in *]; cbn [pm_core pm_edge pm_bias super_prob shp]; unfold size.
    - destruct Hs1 as (A1 & A2 & A3 & A4 & A5). rewrite A3. repeat (split; [try lia; try reflexivity|]). destruct (pm_bias K m1), (pm_bias K m2); reflexivity || exact Logic.I.
    - destruct Hs1 as (A0 & A1 & A2 & A3 & A4 & A5). rewrite A3. repeat (split; [try lia; try reflexivity|]). destruct (pm_bias K m1), (pm_bias K m2); reflexivity || exact Logic.I.
  Qed.
  (** a product that is lost belongs to a zero amplitude *)
  Lemma lost_zero uniform (m : pmps K) n d D (x : tin K) slim par r :
    row_lost (pm_core K m) (pm_edge K m) (pm_bias K m) uniform n d D x slim par r -> psi K uniform m n d D x r = s0.
  Proof.
    unfold row_lost, psi. cbv zeta. set (M := chain _). intros Hl.
    assert (E : row_amp (pm_core K m) (pm_edge K m) (pm_bias K m) uniform n d D x r = sandwich D D (edge_at (pm_edge K m) 0) M (edge_at (pm_edge K m) 1)).
    { unfold M, row_mats, row_amp. destruct x; reflexivity. }
    destruct slim; [|destruct par; [|exact Hl]]; rewrite E; unfold sandwich.
    - transitivity (bsum D (fun j => smul (vmul D (edge_at (pm_edge K m) 0) M j) (edge_at (pm_edge K m) 1 j))).
      + rewrite (bsum_swap K). apply bsum_ext. intros j _. unfold vmul. rewrite <- (bsum_mul_r K). apply bsum_ext. intros i _. ring.
      + apply (bsum_zero K). intros j Hj. rewrite (Hl j Hj). ring.
    - destruct Hl as [_ Hl]. apply (bsum_zero K). intros i Hi. apply (bsum_zero K). intros j Hj. rewrite (Hl i j Hi Hj). ring.
  Qed.
  (** the normaliser of the combination *)
  Definition Z_sum (uniform : bool) (m1 m2 : pmps K) (n d : nat) : R := lsum (K := R_ops) (words d n) (fun w => abs2 (K := K)
    (sadd (smul a (amplitude D1 (edge_at (pm_edge K m1) 0) (edge_at (pm_edge K m1) 1) (letter_site (pm_core K m1) uniform (pm_bias K m1)) w))
          (smul b (amplitude D2 (edge_at (pm_edge K m2) 0) (edge_at (pm_edge K m2) 1) (letter_site (pm_core K m2) uniform (pm_bias K m2)) w)))).
  Theorem C115_prob (uniform : bool) (m1 m2 : pmps K) (n d : nat) : shapes_of K uniform m1 n d D1 -> shapes_of K uniform m2 n d D2 -> 0 < n ->
    exists m', shapes_of K uniform m' n d (D1 + D2) /\ pm_emb K m' = None /\ (pm_bias K m' = None <-> pm_bias K m1 = None /\ pm_bias K m2 = None) /\
      forall (x : tin K) slim par batch, wf_input x batch n d -> (slim = true -> pm_bias K m1 = None /\ pm_bias K m2 = None) ->
        let amp := fun r => sadd (smul a (psi K uniform m1 n d D1 x r)) (smul b (psi K uniform m2 n d D2 x r)) in
        let Zn := Z_sum uniform m1 m2 n d in
        match snd (fwd K uniform m' x slim par) with
        | Ok T => (0 < Zn)%R /\ shp T = [batch] /\ forall r, r < batch ->
            (amp r = s0 -> get T [r] = XNInf) /\ (amp r <> s0 -> get T [r] = XFin (ln (abs2 (amp r) / Zn)))
        | Err er => er = AssertionError /\ (Zn = 0%R \/ exists r, r < batch /\ amp r = s0)
        end.
  Proof.
    intros Hs1 Hs2 Hn. exists (super_prob uniform m1 m2). pose proof (super_shapes uniform m1 m2 n d Hs1 Hs2) as Hs'.
    assert (Hb : pm_bias K (super_prob uniform m1 m2) = None <-> pm_bias K m1 = None /\ pm_bias K m2 = None).
    { cbn [pm_bias super_prob]. destruct (pm_bias K m1), (pm_bias K m2); split; try discriminate; try (intros [? ?]; discriminate); auto. }
    split; [exact Hs'|]. split; [reflexivity|]. split; [exact Hb|]. intros x slim par batch Hx Hsl. cbv zeta.
    assert (EZ : Zfun K uniform (super_prob uniform m1 m2) n d (D1 + D2) = Z_sum uniform m1 m2 n d).
    { unfold Zfun, partition_fn, Z_sum. apply (lsum_ext R_cring). intros w Hw. f_equal. apply super_sites; [|intros; apply super_letter].
      apply words_length in Hw. intros E. rewrite E in Hw. cbn in Hw. lia. }
    pose proof (C90_forward_exact K uniform (super_prob uniform m1 m2) x slim par batch n d (D1 + D2) Hs' eq_refl Hx Hn (fun E => proj2 Hb (Hsl E))) as X. cbv zeta in X. rewrite EZ in X.
    destruct (snd (fwd K uniform (super_prob uniform m1 m2) x slim par)) as [T|er].
    - destruct X as (HZ & _ & ST & GT). split; [exact HZ|]. split; [exact ST|]. intros r Hr. rewrite <- (super_amp uniform m1 m2 n d x r Hn). exact (GT r Hr).
    - destruct X as (Er & X). split; [exact Er|]. destruct X as [X|(r & Hr & X)]; [left; exact X|]. right. exists r. split; [exact Hr|].
      rewrite <- (super_amp uniform m1 m2 n d x r Hn). exact (lost_zero _ _ _ _ _ _ _ _ _ X).
  Qed.
End SuperProb.

Print Assumptions C115_mps.
Print Assumptions C115_ti.
Print Assumptions C115_prob.

(** ** the hypotheses are met *)
(** two memorising models of bond dimensions 2 and 3, with answers 7 and 5 on the word 0110: 2 T1 - T2 answers 9 there and 4 on 1101, with
    the ends closed or open *)
Definition sup_x : tensor R_cring := mkT [2; 4; 2] (fun i => match i with [b; s; f] => one_hot (K := R_cring) (nth b [[0; 1; 1; 0]; [1; 1; 0; 1]] []) s f | _ => s0 end).
Example C115_met : forall per : bool, exists m0' m', mps_init R_cring 4 1 5 2 per true None PNone (3%R : R_cring) true (fun _ _ => 1%R) = Ok m0' /\ trained m0' m' /\
  forall g, exists out, mps_forward R_cring m' sup_x g = (Ok out, Some 2) /\ get out [0; 0] = 9%R /\ get out [1; 0] = 4%R.
Proof.
  intros per. set (L := [[0; 1; 1; 0]; [1; 1; 0; 1]]).
  assert (HD : NoDup L) by (repeat constructor; cbn; intuition discriminate).
  assert (HN : forall w, In w L -> List.length w = 4) by (intros w [<-|[<-|[]]]; reflexivity).
  assert (M : forall D (u v : R_cring), 2 <= D -> exists m01 m1, mps_init R_cring 4 1 D 2 per false None PNone (1%R : R_cring) true (fun _ _ => 1%R) = Ok m01 /\ trained m01 m1 /\
    forall g, exists out, mps_forward R_cring m1 sup_x g = (Ok out, Some 2) /\ shp out = [2; 1] /\ get out [0; 0] = u /\ get out [1; 0] = v).
  { intros D u v H2. destruct (C34_constructor R_cring 4 1 D 2 per false None PNone (1%R : R_cring) true (fun _ _ => 1%R)) as (m0 & Em & _ & El); [exact Logic.I|left; left; reflexivity|].
    destruct (C112_memorise R_cring 4 1 D 2 per false None PNone (1%R : R_cring) true (fun _ _ => 1%R) m0 L (fun w _ => match w with 0 :: _ => u | _ => v end) Em (or_introl eq_refl) ltac:(lia)) as (m & Ht & H).
    - rewrite El. split; discriminate.
    - exact HD.
    - cbn. lia.
    - exact HN.
    - exists m0, m. split; [exact Em|]. split; [exact Ht|]. intros g. destruct (H sup_x 2 g (fun b => nth b L []) eq_refl) as (out & Eo & So & G).
      + left. rewrite El. change (0 < 2). lia.
      + intros b Hb. destruct b as [|[|b]]; [| |lia]; (split; [reflexivity|]; split; [|reflexivity]); intros k Hk; cbn in Hk; lia.
      + exists out. split; [exact Eo|]. split; [exact So|]. split; (rewrite G by lia); reflexivity. }
  destruct (M 2 7%R 1%R ltac:(lia)) as (m01 & m1 & E1 & Ht1 & V1). destruct (M 3 5%R (-2)%R ltac:(lia)) as (m02 & m2 & E2 & Ht2 & V2).
  destruct (C34_constructor R_cring 4 1 5 2 per true None PNone (3%R : R_cring) true (fun _ _ => 1%R)) as (m0' & E' & _ & _); [exact Logic.I|left; left; reflexivity|].
  (* the two models have the feature map that training leaves them with; give the second that of the first *)
  set (m2' := mkMps R_cring (m_input m2) (m_output m2) (m_bond m2) (m_feature m2) (m_periodic m2) (m_parallel m2) (m_label m2) (m_path m2) (m_use_bias m2) (m_modules m2) (m_fmap m1)).
  assert (Ht2' : trained m02 m2') by (destruct Ht2 as [Q1 Q2]; split; [exact Q1|unfold m2'; rewrite Q2; reflexivity]).
  destruct (C115_mps R_cring 4 1 2 per 2 3 false false true None PNone (1%R : R_cring) (1%R : R_cring) (3%R : R_cring) true true true (fun _ _ => 1%R) (fun _ _ => 1%R) (fun _ _ => 1%R) m01 m1 m02 m2' m0' 2%R (-1)%R E1 Ht1 E2 Ht2' E' ltac:(lia) ltac:(lia) eq_refl ltac:(discriminate))
    as (m' & Ht' & _ & H).
  { intros _. exists (/ 2)%R. change (/ 2 + / 2 = 1)%R. lra. }
  exists m0', m'. split; [exact E'|]. split; [exact Ht'|]. intros g. specialize (H sup_x g).
  destruct (V1 g) as (o1 & F1 & S1 & A1 & B1). destruct (V2 g) as (o2 & F2 & S2 & A2 & B2). rewrite F1 in H. destruct H as (t2 & t' & Q2 & Q' & _ & _ & G).
  assert (Q2' : mps_forward R_cring m2' sup_x g = mps_forward R_cring m2 sup_x g) by (pose proof (init_built R_cring _ _ _ _ _ _ _ _ _ _ _ _ _ E2 Ht2) as Hb;
    rewrite (mps_forward_eq R_cring m2' sup_x g sup_x sup_x), (mps_forward_eq R_cring m2 sup_x g sup_x sup_x); [reflexivity|..];
    (apply route_off; try change (m_path m2') with (m_path m2); rewrite (b_path R_cring _ _ _ _ _ _ _ _ _ _ Hb); reflexivity)
    || (apply mps_embed_pre with (B := 2); try change (m_input m2') with (m_input m2); try change (m_feature m2') with (m_feature m2); rewrite (b_in R_cring _ _ _ _ _ _ _ _ _ _ Hb), (b_feat R_cring _ _ _ _ _ _ _ _ _ _ Hb); reflexivity)).
  rewrite Q2', F2 in Q2. injection Q2 as <-. exists t'. split; [exact Q'|]. rewrite S1 in G.
  assert (V : forall r o, r < 2 -> o < 1 -> Forall2 lt [r; o] [2; 1]) by (intros; repeat (apply Forall2_cons; [assumption|]); apply Forall2_nil).
  rewrite !G by (apply V; lia). rewrite A1, B1, A2, B2. split; [change (2 * 7 + -1 * 5 = 9)%R|change (2 * 1 + -1 * -2 = 4)%R]; lra.
Qed.
(** TI_MPS with a fixed bias: bond dimensions 2 and 4 *)
Example C115_ti_met : exists m1 m2 m0' : ti_mps Z_cring,
  ti_init Z_cring 2 2 2 false false (1%Z : Z_cring) true true (fun _ z => z) tick = Ok m1 /\
  ti_init Z_cring 2 4 2 false false (2%Z : Z_cring) true true (fun _ z => z) tick = Ok m2 /\
  ti_init Z_cring 2 6 2 true false (5%Z : Z_cring) true true (fun _ z => z) tick = Ok m0' /\
  exists m', ti_trained m0' m' /\ forall g, exists out, ti_forward Z_cring m' (TTensor ti_x) g = (Ok out, Some 1) /\
    get out [0; 1] = (let xv := (fun s i => tick 0 [0; s; i])%nat in 3 * ti_value m1 3%nat xv 1%nat - 2 * ti_value m2 3%nat xv 1%nat)%Z.
Proof.
  destruct (C38_constructor Z_cring 2 2 2 false false (1%Z : Z_cring) true true (fun _ z => z) tick ltac:(lia)) as (m1 & E1 & Ht1 & _).
  destruct (C38_constructor Z_cring 2 4 2 false false (2%Z : Z_cring) true true (fun _ z => z) tick ltac:(lia)) as (m2 & E2 & Ht2 & _).
  destruct (C38_constructor Z_cring 2 6 2 true false (5%Z : Z_cring) true true (fun _ z => z) tick ltac:(lia)) as (m0' & E' & _ & _).
  assert (Hfm : t_fmap m1 = t_fmap m2).
  { assert (N : forall D std m, ti_init Z_cring 2 D 2 false false std true true (fun _ z => z) tick = Ok m -> t_fmap m = None).
    { clear. intros D std m. unfold ti_init. intros E. repeat match type of E with (let* _ := ?e in _) = _ => destruct e; cbn [rbind] in E; [|discriminate E] end. injection E as <-. reflexivity. }
    rewrite (N _ _ _ E1), (N _ _ _ E2). reflexivity. }
  exists m1, m2, m0'. split; [exact E1|]. split; [exact E2|]. split; [exact E'|].
  destruct (C115_ti Z_cring 2 2 2 4 false false true (1%Z : Z_cring) (2%Z : Z_cring) (5%Z : Z_cring) true true (fun _ z => z) (fun _ z => z) (fun _ z => z) tick tick tick m1 m1 m2 m2 m0' 3%Z (-2)%Z E1 Ht1 E2 Ht2 E' ltac:(lia) ltac:(lia) Hfm) as (m' & Ht' & _ & Hfmt & H).
  exists m'. split; [exact Ht'|]. intros g.
  destruct (C38_ti_forward Z_cring 2 2 2 false false (1%Z : Z_cring) true true (fun _ z => z) tick m1 m1 ti_x 1 3 g E1 Ht1 eq_refl ltac:(lia)) as (o1 & F1 & S1 & G1).
  destruct (C38_ti_forward Z_cring 2 4 2 false false (2%Z : Z_cring) true true (fun _ z => z) tick m2 m2 ti_x 1 3 g E2 Ht2 eq_refl ltac:(lia)) as (o2 & F2 & S2 & G2).
  specialize (H (TTensor ti_x) g). rewrite F1 in H. destruct H as (t2 & t' & Q2 & Q' & _ & _ & G).
  - intros x Ex. exists 1, 3. split; [lia|]. pose proof (ti_init_built Z_cring _ _ _ _ _ _ _ _ _ _ _ _ E1 Ht1) as Hb. destruct (Hfmt (TTensor ti_x)) as [Q _]. rewrite <- Q in Ex.
    rewrite (ti_format_pre Z_cring m1 ti_x 1 3 2 (tb_feat _ _ _ _ _ _ _ _ Hb) eq_refl) in Ex. injection Ex as <-. reflexivity.
  - rewrite F2 in Q2. injection Q2 as <-. exists t'. split; [exact Q'|]. rewrite S1 in G. rewrite G by (repeat (apply Forall2_cons; [lia|]); apply Forall2_nil). rewrite G1, G2 by lia.
    unfold ti_x. cbn [get]. match goal with |- sadd (smul _ ?p) (smul _ ?q) = _ => change (3 * p + -2 * q = 3 * p - 2 * q)%Z end. lia.
Qed.
(** the sum of the two product states 00...0 and 11...1 of bond dimension 1 is a model of bond dimension 2 that gives each of
    these two words probability 1/2 *)
Definition letter_state (uniform : bool) (c : nat) : pmps R_num :=
  mkP R_num (if uniform then mkT [2; 1; 1] (fun i => if nth 0 i 0 =? c then 1%R else 0%R) else mkT [3; 2; 1; 1] (fun i => if nth 1 i 0 =? c then 1%R else 0%R))
    (mkT [2; 1] (fun _ => 1%R)) None None.
Definition ghz_x : tensor Z := mkT [2; 3] (fun i => Z.of_nat (nth 0 i 0)).
Ltac ghz := unfold Z_sum, psi, row_amp, amplitude, sandwich, abs2, lsum, letter_state, ghz_x; cbn; unfold mmul; cbn;
    unfold edge_at, letter_site, entry, bias_at; cbn; try change (Pos.to_nat 1) with 1; cbn.
Example C115_prob_met : forall uniform : bool, exists m', shapes_of R_num uniform m' 3 2 2 /\
  forall slim par, exists T, snd (fwd R_num uniform m' (TLong ghz_x) slim par) = Ok T /\ get T [0] = XFin (ln (1 / 2)) /\ get T [1] = XFin (ln (1 / 2)).
Proof.
  intros uniform.
  assert (Hs : forall c, shapes_of R_num uniform (letter_state uniform c) 3 2 1) by (intros c; destruct uniform; cbn; repeat split; lia).
  destruct (C115_prob R_num 1 1 1%R 1%R ltac:(lia) ltac:(lia) uniform (letter_state uniform 0) (letter_state uniform 1) 3 2 (Hs 0) (Hs 1) ltac:(lia)) as (m' & Hs' & _ & _ & H).
  exists m'. split; [exact Hs'|]. intros slim par.
  assert (Hw : wf_input (K := R_num) (TLong ghz_x) 2 3 2) by (split; [reflexivity|]; intros b t Hb Ht; destruct b as [|[|b]]; [| |lia]; cbn; lia).
  specialize (H (TLong ghz_x) slim par 2 Hw (fun _ => conj eq_refl eq_refl)). cbv zeta in H.
  assert (A : forall r, r < 2 -> sadd (s := R_num) (smul (1%R : R_num) (psi R_num uniform (letter_state uniform 0) 3 2 1 (TLong ghz_x) r)) (smul (1%R : R_num) (psi R_num uniform (letter_state uniform 1) 3 2 1 (TLong ghz_x) r)) = 1%R).
  { intros r Hr. destruct r as [|[|r]]; [| |lia]; destruct uniform; ghz; ring. }
  assert (HZ : Z_sum R_num 1 1 1%R 1%R uniform (letter_state uniform 0) (letter_state uniform 1) 3 2 = 2%R).
  { destruct uniform; ghz; repeat match goal with |- context [Rabs ?z] => first [replace z with 1%R by ring; rewrite Rabs_R1 | replace z with 0%R by ring; rewrite Rabs_R0] end; ring. }
  assert (Hne : (1%R : R_num) <> s0) by (change (1 <> 0)%R; lra).
  rewrite HZ in H. destruct (snd (fwd R_num uniform m' (TLong ghz_x) slim par)) as [T|er].
  - destruct H as (_ & _ & H). exists T. split; [reflexivity|].
    assert (G : forall r, r < 2 -> get T [r] = XFin (ln (1 / 2))).
    { intros r Hr. destruct (H r Hr) as [_ H']. rewrite (A r Hr) in H'. rewrite (H' Hne). f_equal. f_equal. unfold abs2. cbn. rewrite Rabs_R1. lra. }
    split; apply G; lia.
  - exfalso. destruct H as [_ [H|(r & Hr & H)]]; [lra|]. rewrite (A r Hr) in H. exact (Hne H).
Qed.
