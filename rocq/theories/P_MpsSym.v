(** * P_MpsSym: properties C83-C87: what two calls of MPS models with related inputs or related parameters have in
    common (torchmps/torchmps.py: MPS).  Specification: TmSpec.v ([weights_of m]: the numbers stored in the parameters of
    the model m; [trained m0 m]: the constructed model m0 with any values of its parameters). *)
From Verif Require Import Base Scalars Tensor Spec LinAlg EinsumProofs Contractables ContrSpec ContrProofs ContrReduce Utils UtilsSpec UtilsProofs
  TorchMps TmSpec TmProofs TmFinal P_Mps P_Mps2 P_Mps3 TmStale P_Mps4.

Section Sym.
  Variable K : cring.
  Add Ring KrMs : (rth K).
  Notation T := (tensor K).
  Notation matK := (mat K).
  Implicit Types x : T.

  (** ** products of n matrices f 0 ... f (n-1), all of size D x D *)
  Definition pchain (D n : nat) (f : nat -> matK) : list (nat * matK) := map (fun k => (D, f k)) (seq 0 n).
  Lemma pchain_S D n f : pchain D (S n) f = (D, f 0) :: pchain D n (fun k => f (S k)).
  Proof. unfold pchain. cbn [seq map]. rewrite <- seq_shift, map_map. reflexivity. Qed.
  Lemma pchain_cols D n f : cols K D (pchain D n f) = D.
  Proof.
    unfold pchain, cols. generalize 0. induction n as [|n IH]; intros a; [reflexivity|]. cbn [seq map].
    destruct n; [reflexivity|]. cbn [seq map] in *. apply IH.
  Qed.
  Lemma pchain_ext D n : forall f f', (forall t i j, t < n -> i < D -> j < D -> f t i j = f' t i j) ->
    forall i j, i < D -> chain (pchain D n f) i j = chain (pchain D n f') i j.
  Proof.
    induction n as [|n IH]; intros f f' H i j Hi; [reflexivity|]. rewrite !pchain_S, !chain_cons. unfold mmul. apply bsum_ext. intros k Hk.
    rewrite H by (try assumption; lia). f_equal. apply IH; [|exact Hk]. intros. apply H; try assumption; lia.
  Qed.
  Lemma pchain_last D n f i j : i < D -> j < D -> chain (pchain D (S n) f) i j = mmul D (chain (pchain D n f)) (f n) i j.
  Proof.
    intros Hi Hj. unfold pchain at 1. rewrite seq_S, map_app. cbn [plus map]. rewrite (chain_app K D) by exact Hi. fold (pchain D n f).
    rewrite pchain_cols. unfold mmul. apply bsum_ext. intros k Hk. rewrite (chain_single K) by exact Hj. reflexivity.
  Qed.
  Lemma pchain_linear D a b n : forall k f0 f1 f2, k < n ->
    (forall t i j, t < n -> t <> k -> i < D -> j < D -> f1 t i j = f0 t i j) -> (forall t i j, t < n -> t <> k -> i < D -> j < D -> f2 t i j = f0 t i j) ->
    (forall i j, i < D -> j < D -> f2 k i j = sadd (smul a (f0 k i j)) (smul b (f1 k i j))) ->
    forall i j, i < D -> chain (pchain D n f2) i j = sadd (smul a (chain (pchain D n f0) i j)) (smul b (chain (pchain D n f1) i j)).
  Proof.
    induction n as [|n IH]; intros k f0 f1 f2 Hk H1 H2 Hl i j Hi; [lia|]. rewrite !pchain_S, !chain_cons. unfold mmul. rewrite <- !bsum_mul_l, <- bsum_add.
    apply bsum_ext. intros q Hq. destruct k as [|k].
    - rewrite Hl by assumption. rewrite (pchain_ext D n (fun t => f1 (S t)) (fun t => f0 (S t))), (pchain_ext D n (fun t => f2 (S t)) (fun t => f0 (S t))); try assumption.
      + ring.
      + intros; apply H2; try assumption; lia.
      + intros; apply H1; try assumption; lia.
    - rewrite H1, H2 by (try assumption; lia). rewrite (IH k (fun t => f0 (S t)) (fun t => f1 (S t)) (fun t => f2 (S t))); try assumption; [ring|lia|..].
      + intros; apply H1; try assumption; lia.
      + intros; apply H2; try assumption; lia.
  Qed.
  Lemma pchain_mirror D n : forall f f', (forall t i j, t < n -> i < D -> j < D -> f' t i j = f (n - 1 - t) j i) ->
    forall i j, i < D -> j < D -> chain (pchain D n f') i j = chain (pchain D n f) j i.
  Proof.
    induction n as [|n IH]; intros f f' H i j Hi Hj.
    - cbn. unfold delta. rewrite Nat.eqb_sym. reflexivity.
    - rewrite pchain_S, chain_cons, pchain_last by assumption. unfold mmul. apply bsum_ext. intros k Hk.
      rewrite (IH f (fun t => f' (S t))) by (try assumption; intros t a b Ht Ha Hb; rewrite H by (try assumption; lia); f_equal; lia).
      rewrite H by (try assumption; lia). replace (S n - 1 - 0) with n by lia. ring.
  Qed.
  Lemma mul_ext_l n (A A' B : matK) i j : (forall k, k < n -> A i k = A' i k) -> mmul n A B i j = mmul n A' B i j.
  Proof. intros H. unfold mmul. apply bsum_ext. intros k Hk. rewrite H by exact Hk. reflexivity. Qed.
  Lemma mul_ext_r n (A B B' : matK) i j : (forall k, k < n -> B k j = B' k j) -> mmul n A B i j = mmul n A B' i j.
  Proof. intros H. unfold mmul. apply bsum_ext. intros k Hk. rewrite H by exact Hk. reflexivity. Qed.
  (** G_0 M_0 H_1, G_1 M_1 H_2, ... with H_t G_t = 1 in between *)
  Lemma pchain_gauge D D' (G H : nat -> matK) n : forall f f' t0,
    (forall t i j, t0 < t < t0 + n -> i < D -> j < D -> mmul D' (H t) (G t) i j = delta i j) ->
    (forall t i j, t < n -> i < D' -> j < D' -> f' t i j = mmul D (G (t0 + t)) (mmul D (f t) (H (S (t0 + t)))) i j) -> 0 < n ->
    forall i j, i < D' -> j < D' -> chain (pchain D' n f') i j = mmul D (G t0) (mmul D (chain (pchain D n f)) (H (t0 + n))) i j.
  Proof.
    induction n as [|n IH]; intros f f' t0 HG Hf Hn i j Hi Hj; [lia|]. destruct n as [|n].
    - cbn [pchain seq map]. rewrite (chain_single K) by exact Hj. rewrite Hf by (try assumption; lia). rewrite Nat.add_0_r, Nat.add_1_r.
      apply mul_ext_r. intros a Ha. apply mul_ext_l. intros b Hb. rewrite (chain_single K) by exact Hb. reflexivity.
    - rewrite pchain_S, chain_cons.
      transitivity (mmul D' (mmul D (G t0) (mmul D (f 0) (H (S t0)))) (mmul D (G (S t0)) (mmul D (chain (pchain D (S n) (fun t => f (S t)))) (H (S t0 + S n)))) i j).
      { transitivity (mmul D' (f' 0) (mmul D (G (S t0)) (mmul D (chain (pchain D (S n) (fun t => f (S t)))) (H (S t0 + S n)))) i j).
        - apply mul_ext_r. intros k Hk. apply IH; try assumption; try lia.
          + intros t a b Ht. apply HG. lia.
          + intros t a b Ht Ha Hb. rewrite Hf by (try assumption; lia). rewrite !Nat.add_succ_r, !Nat.add_succ_l. reflexivity.
        - apply mul_ext_l. intros k Hk. rewrite Hf, Nat.add_0_r by (try assumption; lia). reflexivity. }
      replace (S t0 + S n) with (t0 + S (S n)) by lia. rewrite (mmul_assoc K). apply mul_ext_r. intros a Ha.
      set (R := mmul D (chain (pchain D (S n) (fun t => f (S t)))) (H (t0 + S (S n)))). rewrite (mmul_assoc K).
      transitivity (mmul D (f 0) R a j).
      { apply mul_ext_r. intros b Hb. rewrite <- (mmul_assoc K). transitivity (mmul D delta R b j); [|apply (mmul_delta_l K); exact Hb].
        apply mul_ext_l. intros c Hc. apply HG; try assumption; lia. }
      unfold R. rewrite <- (mmul_assoc K). apply mul_ext_l. intros b Hb. symmetry. rewrite pchain_S. apply chain_cons.
  Qed.
  Lemma pchain_unit D n : forall f, (forall t i j, t < n -> i < D -> j < D -> f t i j = delta i j) -> forall i j, i < D -> chain (pchain D n f) i j = delta i j.
  Proof.
    induction n as [|n IH]; intros f H i j Hi; [reflexivity|]. rewrite pchain_S, chain_cons. transitivity (mmul D delta (chain (pchain D n (fun k => f (S k)))) i j).
    - unfold mmul. apply bsum_ext. intros k Hk. rewrite H by (try assumption; lia). reflexivity.
    - rewrite (mmul_delta_l K) by exact Hi. apply IH; [|exact Hi]. intros. apply H; try assumption; lia.
  Qed.
  Lemma pchain_zero D n : forall f k, k < n -> (forall i j, i < D -> j < D -> f k i j = s0) -> forall i j, i < D -> chain (pchain D n f) i j = s0.
  Proof.
    induction n as [|n IH]; intros f k Hk H i j Hi; [lia|]. rewrite pchain_S, chain_cons. unfold mmul. apply (bsum_zero K). intros q Hq. destruct k as [|k].
    - rewrite H by assumption. ring.
    - rewrite (IH (fun t => f (S t)) k); [ring|lia|assumption..].
  Qed.

  (** ** the factors of an MPS, by position: label sites, the output core, the other sites *)
  Definition pos_mat (lab F : nat) (w : weights K) (px : nat -> vec K) (o k : nat) : matK :=
    if k <? lab then site_matrix F (w_core w k) (w_bias w k) (px k)
    else if k =? lab then w_out w o else site_matrix F (w_core w (k - 1)) (w_bias w (k - 1)) (px (k - 1)).
  Lemma factors_pos N lab D F w px o : lab <= N -> factors N lab D F w px o = pchain D (S N) (pos_mat lab F w px o).
  Proof.
    intros Hl. unfold factors, pchain. replace (S N) with (lab + S (N - lab)) by lia. rewrite seq_app, map_app. cbn [plus seq map app]. f_equal; [|f_equal].
    - apply map_ext_in. intros k Hk. apply in_seq in Hk. unfold pos_mat. destruct (Nat.ltb_spec k lab); [reflexivity|lia].
    - unfold pos_mat. rewrite Nat.ltb_irrefl, Nat.eqb_refl. reflexivity.
    - rewrite <- seq_shift, map_map. apply map_ext_in. intros k Hk. apply in_seq in Hk. unfold pos_mat.
      destruct (Nat.ltb_spec (S k) lab); [lia|]. destruct (Nat.eqb_spec (S k) lab); [lia|]. rewrite Nat.sub_1_r. reflexivity.
  Qed.
  Lemma value_pos (per : bool) N lab D F w px o : lab <= N ->
    value K per N lab D F w px o = if per then mtrace D (chain (pchain D (S N) (pos_mat lab F w px o))) else chain (pchain D (S N) (pos_mat lab F w px o)) 0 0.
  Proof. intros Hl. unfold value, ring_value, train_value. rewrite factors_pos by exact Hl. reflexivity. Qed.
  Lemma value_ext (per : bool) N lab D F w w' px px' o : lab <= N -> (per = false -> 0 < D) ->
    (forall t i j, t <= N -> i < D -> j < D -> pos_mat lab F w px o t i j = pos_mat lab F w' px' o t i j) ->
    value K per N lab D F w px o = value K per N lab D F w' px' o.
  Proof.
    intros Hl HD H. rewrite !value_pos by exact Hl. destruct per.
    - unfold mtrace. apply bsum_ext. intros k Hk. apply pchain_ext; [|exact Hk]. intros; apply H; try assumption; lia.
    - apply pchain_ext; [|auto]. intros; apply H; try assumption; lia.
  Qed.
  Lemma pixel_ext lab F w px px' o t i j : (forall s k, (s < lab \/ lab <= s) -> k < F -> px s k = px' s k) -> pos_mat lab F w px o t i j = pos_mat lab F w px' o t i j.
  Proof.
    intros H. unfold pos_mat. destruct (t <? lab); [|destruct (t =? lab); [reflexivity|]]; unfold site_matrix; f_equal; apply bsum_ext; intros k Hk; rewrite H by (try assumption; lia); reflexivity.
  Qed.

  (** the outcome of a call that returned *)
  Lemma returned N O D F per par label path std ub rnd m0 m x B g y g' :
    mps_init K N O D F per par label path std ub rnd = Ok m0 -> trained m0 m -> no_path path -> shp x = [B; N; F] ->
    mps_forward K m x g = (Ok y, g') ->
    exists n, expected N (m_label m) D per g B = Rows n /\ g' = Some n /\ shp y = [n; O] /\ m_label m <= N /\ (per = false -> 0 < D) /\ (0 < m_label m -> n = B) /\
      forall b o, b < n -> o < O -> get y [b; o] = value K per N (m_label m) D F (weights_of m) (fun s i => get x [source B b; s; i]) o.
  Proof.
    intros Hi Ht Hp Hx E. pose proof (exact_forward K _ _ _ _ _ _ _ _ _ _ _ _ _ x B g Hi Ht Hp Hx) as Q.
    destruct (expected N (m_label m) D per g B) as [n|e] eqn:Ex; [|rewrite E in Q; discriminate Q].
    destruct Q as (y' & E' & S' & G'). rewrite E in E'. injection E' as -> ->. exists n.
    pose proof (init_built K _ _ _ _ _ _ _ _ _ _ _ _ _ Hi Ht) as Hb. pose proof (b_lab K _ _ _ _ _ _ _ _ _ _ Hb) as El. pose proof (b_le K _ _ _ _ _ _ _ _ _ _ Hb) as Hle.
    repeat split; try assumption.
    - rewrite El. exact Hle.
    - intros Hper. unfold expected in Ex. rewrite Hper in Ex. destruct (if 0 <? m_label m then Some B else g); [|discriminate]. destruct ((_ =? 1) || _)%bool; [discriminate|]. cbn [negb andb] in Ex.
      destruct (Nat.eqb_spec D 0); [discriminate|lia].
    - intros Hl. unfold expected, broadcast in Ex. destruct (Nat.ltb_spec 0 (m_label m)); [|lia]. rewrite Nat.eqb_refl in Ex. destruct ((_ =? 1) || _)%bool; [discriminate|].
      destruct (negb per && (D =? 0))%bool; [discriminate|]. destruct (N =? 0); injection Ex as ->; reflexivity.
  Qed.
  (** the same outcome for another model with the same geometry *)
  Lemma returns N O D F per par label path std ub rnd m0 m x B g n :
    mps_init K N O D F per par label path std ub rnd = Ok m0 -> trained m0 m -> no_path path -> shp x = [B; N; F] ->
    expected N (m_label m) D per g B = Rows n ->
    exists y, mps_forward K m x g = (Ok y, Some n) /\ shp y = [n; O] /\
      forall b o, b < n -> o < O -> get y [b; o] = value K per N (m_label m) D F (weights_of m) (fun s i => get x [source B b; s; i]) o.
  Proof. intros Hi Ht Hp Hx Ex. pose proof (exact_forward K _ _ _ _ _ _ _ _ _ _ _ _ _ x B g Hi Ht Hp Hx) as Q. rewrite Ex in Q. exact Q. Qed.

  (** ** C83: the rows of a batch do not influence each other *)
  (** Row b of one call and row b' of another call (of the same model, other batch sizes, other histories) agree if the two rows of pixels agree. *)
  Theorem C83_rows N O D F per par label path std ub rnd m0 m x x' B B' g g1 h h1 y y' b b' :
    mps_init K N O D F per par label path std ub rnd = Ok m0 -> trained m0 m -> no_path path -> 0 < m_label m ->
    shp x = [B; N; F] -> shp x' = [B'; N; F] -> mps_forward K m x g = (Ok y, g1) -> mps_forward K m x' h = (Ok y', h1) ->
    b < B -> b' < B' -> (forall s i, s < N -> i < F -> get x' [b'; s; i] = get x [b; s; i]) ->
    shp y = [B; O] /\ shp y' = [B'; O] /\ forall o, o < O -> get y' [b'; o] = get y [b; o].
  Proof.
    intros Hi Ht Hp Hl Hx Hx' E E' Hb Hb' Hpx.
    destruct (returned _ _ _ _ _ _ _ _ _ _ _ _ _ x B g y g1 Hi Ht Hp Hx E) as (n & Ex & _ & Sy & Hle & HD & Hn & Gy).
    destruct (returned _ _ _ _ _ _ _ _ _ _ _ _ _ x' B' h y' h1 Hi Ht Hp Hx' E') as (n' & Ex' & _ & Sy' & _ & _ & Hn' & Gy').
    specialize (Hn Hl). specialize (Hn' Hl). subst n n'. split; [exact Sy|]. split; [exact Sy'|]. intros o Ho. rewrite Gy, Gy' by assumption.
    assert (Q : forall B b, b < B -> source B b = b) by (intros C c Hc; unfold source; destruct (Nat.eqb_spec C 1); lia). rewrite !Q by assumption.
    apply value_ext; try assumption. intros t i j Htt Hii Hjj. unfold pos_mat. destruct (Nat.ltb_spec t (m_label m)); [|destruct (Nat.eqb_spec t (m_label m)); [reflexivity|]];
      unfold site_matrix; f_equal; apply bsum_ext; intros k Hk; rewrite Hpx by (try assumption; lia); reflexivity.
  Qed.

  (** ** C84: the output is linear in every parameter tensor *)
  (** the numbers of the three models agree except at site s, where A_2 = a A_0 + b A_1 *)
  Definition mixes_core (N D F O s : nat) (a b : K) (w0 w1 w2 : weights K) : Prop :=
    (forall t l r i, t < N -> t <> s -> l < D -> r < D -> i < F -> w_core w1 t l r i = w_core w0 t l r i /\ w_core w2 t l r i = w_core w0 t l r i) /\
    (forall l r i, l < D -> r < D -> i < F -> w_core w2 s l r i = sadd (smul a (w_core w0 s l r i)) (smul b (w_core w1 s l r i))) /\
    (forall t l r, t < N -> l < D -> r < D -> w_bias w1 t l r = w_bias w0 t l r /\ w_bias w2 t l r = w_bias w0 t l r) /\
    (forall o l r, o < O -> l < D -> r < D -> w_out w1 o l r = w_out w0 o l r /\ w_out w2 o l r = w_out w0 o l r).
  (** the numbers agree except in the output core, where O_2 = a O_0 + b O_1 *)
  Definition mixes_output (N D F O : nat) (a b : K) (w0 w1 w2 : weights K) : Prop :=
    (forall t l r i, t < N -> l < D -> r < D -> i < F -> w_core w1 t l r i = w_core w0 t l r i /\ w_core w2 t l r i = w_core w0 t l r i) /\
    (forall t l r, t < N -> l < D -> r < D -> w_bias w1 t l r = w_bias w0 t l r /\ w_bias w2 t l r = w_bias w0 t l r) /\
    (forall o l r, o < O -> l < D -> r < D -> w_out w2 o l r = sadd (smul a (w_out w0 o l r)) (smul b (w_out w1 o l r))).
  Lemma label_same N O D F per par label path std ub rnd mi m m' :
    mps_init K N O D F per par label path std ub rnd = Ok mi -> trained mi m -> trained mi m' -> m_label m' = m_label m.
  Proof.
    intros Hi H H'. rewrite (b_lab K _ _ _ _ _ _ _ _ _ _ (init_built K _ _ _ _ _ _ _ _ _ _ _ _ _ Hi H)), (b_lab K _ _ _ _ _ _ _ _ _ _ (init_built K _ _ _ _ _ _ _ _ _ _ _ _ _ Hi H')). reflexivity.
  Qed.
  Lemma value_linear (per : bool) N lab D F w0 w1 w2 px o a b k : lab <= N -> (per = false -> 0 < D) -> k <= N ->
    (forall t i j, t <= N -> t <> k -> i < D -> j < D -> pos_mat lab F w1 px o t i j = pos_mat lab F w0 px o t i j) ->
    (forall t i j, t <= N -> t <> k -> i < D -> j < D -> pos_mat lab F w2 px o t i j = pos_mat lab F w0 px o t i j) ->
    (forall i j, i < D -> j < D -> pos_mat lab F w2 px o k i j = sadd (smul a (pos_mat lab F w0 px o k i j)) (smul b (pos_mat lab F w1 px o k i j))) ->
    value K per N lab D F w2 px o = sadd (smul a (value K per N lab D F w0 px o)) (smul b (value K per N lab D F w1 px o)).
  Proof.
    intros Hl HD Hk H1 H2 H. rewrite !value_pos by exact Hl.
    assert (L : forall i j, i < D -> chain (pchain D (S N) (pos_mat lab F w2 px o)) i j =
      sadd (smul a (chain (pchain D (S N) (pos_mat lab F w0 px o)) i j)) (smul b (chain (pchain D (S N) (pos_mat lab F w1 px o)) i j))).
    { apply (pchain_linear D a b (S N) k); [lia|intros; apply H1; try assumption; lia|intros; apply H2; try assumption; lia|exact H]. }
    destruct per; [|apply L; auto]. unfold mtrace. rewrite <- !bsum_mul_l, <- bsum_add. apply bsum_ext. intros q Hq. apply L, Hq.
  Qed.
  Theorem C84_linear_core N O D F per par label path std ub rnd mi m0 m1 m2 s a b x B g y0 g' :
    mps_init K N O D F per par label path std ub rnd = Ok mi -> trained mi m0 -> trained mi m1 -> trained mi m2 -> no_path path -> s < N ->
    mixes_core N D F O s a b (weights_of m0) (weights_of m1) (weights_of m2) -> ub = false \/ sadd a b = s1 ->
    shp x = [B; N; F] -> mps_forward K m0 x g = (Ok y0, g') ->
    exists y1 y2 n, mps_forward K m1 x g = (Ok y1, g') /\ mps_forward K m2 x g = (Ok y2, g') /\ shp y0 = [n; O] /\ shp y1 = [n; O] /\ shp y2 = [n; O] /\
      forall c o, c < n -> o < O -> get y2 [c; o] = sadd (smul a (get y0 [c; o])) (smul b (get y1 [c; o])).
  Proof.
    intros Hi T0 T1 T2 Hp Hs (Hc & Hm & Hb & Ho) Hab Hx E.
    destruct (returned _ _ _ _ _ _ _ _ _ _ _ _ _ x B g y0 g' Hi T0 Hp Hx E) as (n & Ex & -> & Sy & Hle & HD & _ & Gy).
    pose proof (label_same _ _ _ _ _ _ _ _ _ _ _ _ _ _ Hi T0 T1) as L1. pose proof (label_same _ _ _ _ _ _ _ _ _ _ _ _ _ _ Hi T0 T2) as L2.
    destruct (returns _ _ _ _ _ _ _ _ _ _ _ _ _ x B g n Hi T1 Hp Hx) as (y1 & E1 & S1 & G1); [rewrite L1; exact Ex|].
    destruct (returns _ _ _ _ _ _ _ _ _ _ _ _ _ x B g n Hi T2 Hp Hx) as (y2 & E2 & S2 & G2); [rewrite L2; exact Ex|].
    exists y1, y2, n. repeat (split; [assumption|]). intros c o Hcc Hoo. rewrite Gy, G1, G2 by assumption. rewrite L1, L2.
    set (px := fun (s i : nat) => get x [source B c; s; i]). set (lab := m_label m0) in *.
    assert (Hbias : forall l r, l < D -> r < D -> w_bias (weights_of m0) s l r = smul (sadd a b) (w_bias (weights_of m0) s l r)).
    { intros l r Hl Hr. destruct Hab as [Hu|Hab]; [|rewrite Hab; ring]. subst ub. pose proof (init_built K _ _ _ _ _ _ _ _ _ _ _ _ _ Hi T0) as Hbu. destruct Hbu.
      rewrite (form_no_bias K N O D F m0); [ring|rewrite b_lab; exact b_form|rewrite b_lab; exact b_le|exact Hs]. }
    assert (Hsite : forall t i j, t < N -> t <> s -> i < D -> j < D ->
      site_matrix F (w_core (weights_of m1) t) (w_bias (weights_of m1) t) (px t) i j = site_matrix F (w_core (weights_of m0) t) (w_bias (weights_of m0) t) (px t) i j /\
      site_matrix F (w_core (weights_of m2) t) (w_bias (weights_of m2) t) (px t) i j = site_matrix F (w_core (weights_of m0) t) (w_bias (weights_of m0) t) (px t) i j).
    { intros t i j Htt Hne Hii Hjj. unfold site_matrix. destruct (Hb t i j Htt Hii Hjj) as [-> ->]. split; f_equal; apply bsum_ext; intros k Hk; destruct (Hc t i j k Htt Hne Hii Hjj Hk) as [Q1 Q2]; rewrite ?Q1, ?Q2; reflexivity. }
    assert (Hmix : forall i j, i < D -> j < D -> site_matrix F (w_core (weights_of m2) s) (w_bias (weights_of m2) s) (px s) i j =
      sadd (smul a (site_matrix F (w_core (weights_of m0) s) (w_bias (weights_of m0) s) (px s) i j)) (smul b (site_matrix F (w_core (weights_of m1) s) (w_bias (weights_of m1) s) (px s) i j))).
    { intros i j Hii Hjj. unfold site_matrix. destruct (Hb s i j Hs Hii Hjj) as [-> ->].
      transitivity (sadd (bsum F (fun k => smul (px s k) (sadd (smul a (w_core (weights_of m0) s i j k)) (smul b (w_core (weights_of m1) s i j k))))) (smul (sadd a b) (w_bias (weights_of m0) s i j))).
      - rewrite <- Hbias by assumption. f_equal. apply bsum_ext. intros k Hk. rewrite Hm by assumption. reflexivity.
      - transitivity (sadd (sadd (smul a (bsum F (fun k => smul (px s k) (w_core (weights_of m0) s i j k)))) (smul b (bsum F (fun k => smul (px s k) (w_core (weights_of m1) s i j k))))) (smul (sadd a b) (w_bias (weights_of m0) s i j))); [|ring].
        f_equal. rewrite <- !bsum_mul_l, <- bsum_add. apply bsum_ext. intros k _. ring. }
    apply (value_linear per N lab D F _ _ _ px o a b (if s <? lab then s else S s)); try assumption.
    - destruct (s <? lab); lia.
    - intros t i j Htt Hne Hii Hjj. unfold pos_mat. destruct (Nat.ltb_spec t lab), (Nat.ltb_spec s lab); try (apply Hsite; try assumption; lia);
        (destruct (Nat.eqb_spec t lab); [apply Ho; assumption|apply Hsite; try assumption; lia]).
    - intros t i j Htt Hne Hii Hjj. unfold pos_mat. destruct (Nat.ltb_spec t lab), (Nat.ltb_spec s lab); try (apply Hsite; try assumption; lia);
        (destruct (Nat.eqb_spec t lab); [apply Ho; assumption|apply Hsite; try assumption; lia]).
    - intros i j Hii Hjj. unfold pos_mat. destruct (Nat.ltb_spec s lab) as [H|H].
      + destruct (Nat.ltb_spec s lab); [|lia]. apply Hmix; assumption.
      + destruct (Nat.ltb_spec (S s) lab); [lia|]. destruct (Nat.eqb_spec (S s) lab); [lia|]. rewrite Nat.sub_1_r. cbn [Nat.pred]. apply Hmix; assumption.
  Qed.
  Theorem C84_linear_output N O D F per par label path std ub rnd mi m0 m1 m2 a b x B g y0 g' :
    mps_init K N O D F per par label path std ub rnd = Ok mi -> trained mi m0 -> trained mi m1 -> trained mi m2 -> no_path path ->
    mixes_output N D F O a b (weights_of m0) (weights_of m1) (weights_of m2) ->
    shp x = [B; N; F] -> mps_forward K m0 x g = (Ok y0, g') ->
    exists y1 y2 n, mps_forward K m1 x g = (Ok y1, g') /\ mps_forward K m2 x g = (Ok y2, g') /\ shp y0 = [n; O] /\ shp y1 = [n; O] /\ shp y2 = [n; O] /\
      forall c o, c < n -> o < O -> get y2 [c; o] = sadd (smul a (get y0 [c; o])) (smul b (get y1 [c; o])).
  Proof.
    intros Hi T0 T1 T2 Hp (Hc & Hb & Ho) Hx E.
    destruct (returned _ _ _ _ _ _ _ _ _ _ _ _ _ x B g y0 g' Hi T0 Hp Hx E) as (n & Ex & -> & Sy & Hle & HD & _ & Gy).
    pose proof (label_same _ _ _ _ _ _ _ _ _ _ _ _ _ _ Hi T0 T1) as L1. pose proof (label_same _ _ _ _ _ _ _ _ _ _ _ _ _ _ Hi T0 T2) as L2.
    destruct (returns _ _ _ _ _ _ _ _ _ _ _ _ _ x B g n Hi T1 Hp Hx) as (y1 & E1 & S1 & G1); [rewrite L1; exact Ex|].
    destruct (returns _ _ _ _ _ _ _ _ _ _ _ _ _ x B g n Hi T2 Hp Hx) as (y2 & E2 & S2 & G2); [rewrite L2; exact Ex|].
    exists y1, y2, n. repeat (split; [assumption|]). intros c o Hcc Hoo. rewrite Gy, G1, G2 by assumption. rewrite L1, L2.
    set (px := fun (s i : nat) => get x [source B c; s; i]). set (lab := m_label m0) in *.
    assert (Hsite : forall t i j, t < N -> i < D -> j < D ->
      site_matrix F (w_core (weights_of m1) t) (w_bias (weights_of m1) t) (px t) i j = site_matrix F (w_core (weights_of m0) t) (w_bias (weights_of m0) t) (px t) i j /\
      site_matrix F (w_core (weights_of m2) t) (w_bias (weights_of m2) t) (px t) i j = site_matrix F (w_core (weights_of m0) t) (w_bias (weights_of m0) t) (px t) i j).
    { intros t i j Htt Hii Hjj. unfold site_matrix. destruct (Hb t i j Htt Hii Hjj) as [-> ->]. split; f_equal; apply bsum_ext; intros k Hk; destruct (Hc t i j k Htt Hii Hjj Hk) as [Q1 Q2]; rewrite ?Q1, ?Q2; reflexivity. }
    apply (value_linear per N lab D F _ _ _ px o a b lab); try assumption.
    - intros t i j Htt Hne Hii Hjj. unfold pos_mat. destruct (Nat.ltb_spec t lab); [apply Hsite; try assumption; lia|]. destruct (Nat.eqb_spec t lab); [lia|]. apply Hsite; try assumption; lia.
    - intros t i j Htt Hne Hii Hjj. unfold pos_mat. destruct (Nat.ltb_spec t lab); [apply Hsite; try assumption; lia|]. destruct (Nat.eqb_spec t lab); [lia|]. apply Hsite; try assumption; lia.
    - intros i j Hii Hjj. unfold pos_mat. rewrite Nat.ltb_irrefl, Nat.eqb_refl. apply Ho; assumption.
  Qed.
End Sym.
