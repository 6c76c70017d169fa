(** * P_MpsSym2: properties C85-C87 (torchmps/torchmps.py: MPS): fresh models, gauge transformations, mirror image *)
From Verif Require Import Base Scalars Tensor Spec LinAlg EinsumProofs Contractables ContrSpec ContrProofs ContrReduce Utils UtilsSpec UtilsProofs
  TorchMps TmSpec TmProofs TmFinal P_Mps P_Mps2 P_Mps3 TmStale P_Mps4 P_MpsSym.

Section Sym.
  Variable K : cring.
  Add Ring KrMs2 : (rth K).
  Notation T := (tensor K).
  Notation matK := (mat K).
  Implicit Types x : T.

  (** ** C85: fresh models *)
  (** the parameters of a fresh model: cores init_std * noise, biases the identity, output core the identity plus init_std * noise *)
  Theorem C85_fresh_weights N O D F per par label path std ub rnd m :
    mps_init K N O D F per par label path std ub rnd = Ok m ->
    (forall s l r i, s < N -> l < D -> r < D -> i < F -> w_core (weights_of m) s l r i =
       smul std (if s <? m_label m then rnd 0 [s; l; r; i] else rnd 2 [s - m_label m; l; r; i])) /\
    (forall s l r, s < N -> w_bias (weights_of m) s l r = if ub then delta l r else s0) /\
    (forall o l r, o < O -> l < D -> r < D -> w_out (weights_of m) o l r = sadd (delta l r) (smul std (rnd 1 [o; l; r]))).
  Proof.
    unfold mps_init. intros E. destruct (label_of N label) as [lab|] eqn:El; cbn [rbind] in E; [|discriminate].
    assert (Hle : lab <= N).
    { unfold label_of in El. set (z := match label with None => _ | Some z => z end) in El. destruct ((0 <=? z)%Z && (z <=? Z.of_nat N)%Z) eqn:Ez; cbn [assert_ rbind] in El; [|discriminate].
      injection El as <-. apply andb_prop in Ez as [Z1 Z2]. apply Z.leb_le in Z1, Z2. lia. }
    destruct (build_modules K false N O D F lab std ub rnd) as [mods|] eqn:Eb; cbn [rbind] in E; [|discriminate].
    destruct (region_len K mods =? N); cbn [assert_ rbind] in E; [|discriminate].
    destruct (check_path N path) as [[]|]; cbn [rbind] in E; [|discriminate]. injection E as <-.
    unfold build_modules in Eb.
    assert (R : forall k n l, build_region K false O D F std ub rnd k n = Ok l -> if 0 <? n then exists t, l = [InputRegion t ub (if ub then Some (unsq_front 1 (eye2 K D D)) else None)] /\
      forall i, get t i = smul std (rnd k i) else l = []).
    { intros k n l. unfold build_region. destruct (0 <? n); [|intros Q; injection Q as <-; reflexivity].
      destruct (init_tensor K s0 [n; D; D; F] "slri" (ITuple "random_zero" std [O]) (mkT [n; D; D; F] (rnd k))) as [t|] eqn:Et; cbn [rbind]; [|discriminate].
      assert (Et' : t = tmap (smul std) (mkT [n; D; D; F] (rnd k))) by (revert Et; unfold init_tensor; vm_compute; intros Q; injection Q as <-; reflexivity).
      subst t. intros Q. exists (tmap (smul std) (mkT [n; D; D; F] (rnd k))). unfold input_region in Q. cbn [tmap ndim shp List.length Nat.eqb assert_ rbind size nth] in Q.
      rewrite Nat.eqb_refl in Q. cbn [assert_ rbind] in Q. destruct ub; cbn in Q; injection Q as <-; split; reflexivity. }
    destruct (build_region K false O D F std ub rnd 0 lab) as [lm|] eqn:E0; cbn [rbind] in Eb; [|discriminate].
    destruct (init_tensor K s0 [O; D; D] "olr" (ITuple "random_eye" std [O]) (mkT [O; D; D] (rnd 1))) as [t|] eqn:Et; cbn [rbind] in Eb; [|discriminate].
    destruct (build_region K false O D F std ub rnd 2 (N - lab)) as [rm|] eqn:E2; cbn [rbind] in Eb; [|discriminate]. injection Eb as <-.
    apply R in E0, E2. clear R.
    assert (Ht : forall o l r, o < O -> l < D -> r < D -> get t [o; l; r] = sadd (delta l r) (smul std (rnd 1 [o; l; r]))).
    { intros o l r Ho Hl Hr. destruct (init_random_eye K s0 [O; D; D] "olr" std [O] (mkT [O; D; D] (rnd 1)) eq_refl eq_refl) as (t' & Et' & _ & G).
      - repeat constructor; cbn; intuition discriminate.
      - left. cbn. reflexivity || (exists ["o"%char], [], []; reflexivity) || auto.
      - rewrite Et in Et'. injection Et' as <-. rewrite G by (repeat constructor; assumption). reflexivity. }
    cbn [weights_of w_core w_bias w_out m_label m_modules]. unfold first_mod, last_mod, out_mod. cbn [m_modules m_label].
    assert (A0 : forall s, s < lab -> exists t0, nth 0 (lm ++ [OutputSite t] ++ rm) (OutputSite (no_tensor K)) = InputRegion t0 ub (if ub then Some (unsq_front 1 (eye2 K D D)) else None) /\
      forall i, get t0 i = smul std (rnd 0 i)).
    { intros s Hs. destruct (Nat.ltb_spec 0 lab); [|lia]. destruct E0 as (t0 & -> & G). exists t0. split; [reflexivity|exact G]. }
    assert (A2 : forall s, s < N -> lab <= s -> exists t0, last (lm ++ [OutputSite t] ++ rm) (OutputSite (no_tensor K)) = InputRegion t0 ub (if ub then Some (unsq_front 1 (eye2 K D D)) else None) /\
      forall i, get t0 i = smul std (rnd 2 i)).
    { intros s Hs Hls. destruct (Nat.ltb_spec 0 (N - lab)); [|lia]. destruct E2 as (t0 & -> & G). exists t0. split; [|exact G]. rewrite app_assoc. apply last_last. }
    assert (A1 : nth (if 0 <? lab then 1 else 0) (lm ++ [OutputSite t] ++ rm) (OutputSite (no_tensor K)) = OutputSite t).
    { destruct (0 <? lab); [destruct E0 as (t0 & -> & _); reflexivity|subst lm; reflexivity]. }
    assert (Bm : forall t0 l r, mod_bias (InputRegion t0 ub (if ub then Some (unsq_front 1 (eye2 K D D)) else None)) l r = if ub then delta l r else s0) by (intros; destruct ub; reflexivity).
    split; [|split].
    - intros s l r i Hs Hl Hr Hi. destruct (Nat.ltb_spec s lab) as [H|H]; [destruct (A0 s H) as (t0 & Q & G)|destruct (A2 s Hs H) as (t0 & Q & G)]; cbn [app] in Q; cbn [app]; rewrite Q; apply G.
    - intros s l r Hs. destruct (Nat.ltb_spec s lab) as [H|H]; [destruct (A0 s H) as (t0 & Q & _)|destruct (A2 s Hs H) as (t0 & Q & _)]; cbn [app] in Q; cbn [app]; rewrite Q; apply Bm.
    - intros o l r Ho Hl Hr. cbn [app] in A1. cbn [app]. rewrite A1. apply Ht; assumption.
  Qed.
  (** with init_std = 0 every call that returns gives the same number everywhere: with biases 1 (open boundary) or the bond dimension (periodic
      boundary), without biases 0 *)
  Theorem C85_fresh_output N O D F per par label path ub rnd m x B g y g' :
    mps_init K N O D F per par label path s0 ub rnd = Ok m -> trained m m -> no_path path -> 0 < N -> shp x = [B; N; F] -> mps_forward K m x g = (Ok y, g') ->
    exists n, shp y = [n; O] /\ forall b o, b < n -> o < O -> get y [b; o] = if ub then (if per then bsum D (fun _ => s1) else s1) else s0.
  Proof.
    intros Hi Ht Hp HN Hx E. destruct (returned K _ _ _ _ _ _ _ _ _ _ _ _ _ x B g y g' Hi Ht Hp Hx E) as (n & Ex & _ & Sy & Hle & HD & _ & Gy).
    destruct (C85_fresh_weights _ _ _ _ _ _ _ _ _ _ _ _ Hi) as (Wc & Wb & Wo). exists n. split; [exact Sy|]. intros b o Hb Ho. rewrite Gy by assumption. clear Gy.
    rewrite value_pos by exact Hle. set (px := fun (s i : nat) => get x [source B b; s; i]). set (lab := m_label m) in *.
    assert (Hsite : forall t i j, t < N -> i < D -> j < D -> site_matrix F (w_core (weights_of m) t) (w_bias (weights_of m) t) (px t) i j = if ub then delta i j else s0).
    { intros t i j Htt Hii Hjj. unfold site_matrix. rewrite Wb by exact Htt. rewrite (bsum_zero K) by (intros k Hk; rewrite Wc by assumption; ring). ring. }
    assert (Hout : forall i j, i < D -> j < D -> w_out (weights_of m) o i j = delta i j) by (intros i j Hii Hjj; rewrite Wo by assumption; ring).
    assert (L : forall i, i < D -> chain (pchain K D (S N) (pos_mat K lab F (weights_of m) px o)) i i = if ub then s1 else s0).
    { intros i Hii. destruct ub.
      - transitivity (delta i i : K); [|unfold delta; rewrite Nat.eqb_refl; reflexivity]. apply pchain_unit; [|exact Hii]. intros t a c Htt Ha Hc. unfold pos_mat.
        destruct (Nat.ltb_spec t lab); [apply Hsite; try assumption; lia|]. destruct (Nat.eqb_spec t lab); [apply Hout; assumption|apply Hsite; try assumption; lia].
      - destruct (Nat.eq_dec lab 0) as [H0|H0].
        + apply (pchain_zero K D (S N) _ 1); [lia| |exact Hii]. intros a c Ha Hc. unfold pos_mat. rewrite H0. change (1 <? 0) with false. change (1 =? 0) with false. cbv iota. apply Hsite; try assumption; lia.
        + apply (pchain_zero K D (S N) _ 0); [lia| |exact Hii]. intros a c Ha Hc. unfold pos_mat. destruct (Nat.ltb_spec 0 lab); [|lia]. apply Hsite; try assumption; lia. }
    destruct per.
    - unfold mtrace. rewrite (bsum_ext D _ (fun _ => if ub then s1 else s0)) by exact L. destruct ub; [reflexivity|apply (bsum_0 K)].
    - rewrite L by auto. reflexivity.
  Qed.
  (** without biases, a model with one vanishing core returns 0, whatever the other cores are *)
  Theorem C85_zero_core N O D F per par label path std rnd mi m s x B g y g' :
    mps_init K N O D F per par label path std false rnd = Ok mi -> trained mi m -> no_path path -> s < N ->
    (forall l r i, l < D -> r < D -> i < F -> w_core (weights_of m) s l r i = s0) -> shp x = [B; N; F] -> mps_forward K m x g = (Ok y, g') ->
    exists n, shp y = [n; O] /\ forall b o, b < n -> o < O -> get y [b; o] = s0.
  Proof.
    intros Hi Ht Hp Hs Hz Hx E. destruct (returned K _ _ _ _ _ _ _ _ _ _ _ _ _ x B g y g' Hi Ht Hp Hx E) as (n & Ex & _ & Sy & Hle & HD & _ & Gy).
    exists n. split; [exact Sy|]. intros b o Hb Ho. rewrite Gy by assumption. clear Gy. rewrite value_pos by exact Hle. set (px := fun (s i : nat) => get x [source B b; s; i]). set (lab := m_label m) in *.
    assert (Hsite : forall i j, i < D -> j < D -> site_matrix F (w_core (weights_of m) s) (w_bias (weights_of m) s) (px s) i j = s0).
    { intros i j Hii Hjj. unfold site_matrix. pose proof (init_built K _ _ _ _ _ _ _ _ _ _ _ _ _ Hi Ht) as Hbu. destruct Hbu.
      rewrite (form_no_bias K N O D F m); [|rewrite b_lab; exact b_form|rewrite b_lab; exact b_le|exact Hs].
      rewrite (bsum_zero K) by (intros k Hk; rewrite Hz by assumption; ring). ring. }
    assert (L : forall i j, i < D -> chain (pchain K D (S N) (pos_mat K lab F (weights_of m) px o)) i j = s0).
    { intros i j Hii. apply (pchain_zero K D (S N) _ (if s <? lab then s else S s)); [destruct (s <? lab); lia| |exact Hii]. intros a c Ha Hc. unfold pos_mat. destruct (Nat.ltb_spec s lab).
      - destruct (Nat.ltb_spec s lab); [|lia]. apply Hsite; assumption.
      - destruct (Nat.ltb_spec (S s) lab); [lia|]. destruct (Nat.eqb_spec (S s) lab); [lia|]. rewrite Nat.sub_1_r. apply Hsite; assumption. }
    destruct per; [|apply L; auto]. unfold mtrace. apply (bsum_zero K). intros k Hk. apply L, Hk.
  Qed.

  (** ** C86: gauge transformations *)
  (** the bond on the left of site s, where the bonds are numbered 0..N+1 from the left *)
  Definition bond_of (lab s : nat) : nat := if s <? lab then s else S s.
  (** M' = G_k M H_(k+1) for every tensor between the bonds k and k+1 *)
  Definition gauged (N lab D D' F O : nat) (G H : nat -> matK) (w w' : weights K) : Prop :=
    (forall s l r i, s < N -> l < D' -> r < D' -> i < F -> w_core w' s l r i = mmul D (G (bond_of lab s)) (mmul D (fun l r => w_core w s l r i) (H (S (bond_of lab s)))) l r) /\
    (forall s l r, s < N -> l < D' -> r < D' -> w_bias w' s l r = mmul D (G (bond_of lab s)) (mmul D (w_bias w s) (H (S (bond_of lab s)))) l r) /\
    (forall o l r, o < O -> l < D' -> r < D' -> w_out w' o l r = mmul D (G lab) (mmul D (w_out w o) (H (S lab))) l r).
  (** H_t G_t = 1 on the inner bonds; at the ends: for an open boundary, the entry (0, 0) is kept; for a periodic one H_(N+1) G_0 = 1 *)
  Definition gauges (per : bool) (N D D' : nat) (G H : nat -> matK) : Prop :=
    (forall t i j, 0 < t < S N -> i < D -> j < D -> mmul D' (H t) (G t) i j = delta i j) /\
    (if per then forall i j, i < D -> j < D -> mmul D' (H (S N)) (G 0) i j = delta i j
     else (forall j, j < D -> G 0 0 j = delta 0 j) /\ (forall i, i < D -> H (S N) i 0 = delta i 0)).
  Lemma site_gauged F D (G H : matK) (A A' : nat -> nat -> nat -> K) (Bi Bi' : matK) (v : vec K) l r :
    (forall i, i < F -> A' l r i = mmul D G (mmul D (fun l r => A l r i) H) l r) -> Bi' l r = mmul D G (mmul D Bi H) l r ->
    site_matrix F A' Bi' v l r = mmul D G (mmul D (site_matrix F A Bi v) H) l r.
  Proof.
    intros HA HB. unfold site_matrix. rewrite HB. unfold mmul.
    transitivity (sadd (bsum D (fun a => bsum D (fun c => smul (G l a) (smul (bsum F (fun i => smul (v i) (A a c i))) (H c r))))) (bsum D (fun a => bsum D (fun c => smul (G l a) (smul (Bi a c) (H c r)))))).
    - f_equal.
      + transitivity (bsum F (fun i => bsum D (fun a => bsum D (fun c => smul (G l a) (smul (smul (v i) (A a c i)) (H c r)))))).
        * apply bsum_ext. intros i Hi. rewrite HA by exact Hi. unfold mmul. rewrite <- bsum_mul_l. apply bsum_ext. intros a Ha. rewrite <- !bsum_mul_l. apply bsum_ext. intros c Hc. ring.
        * rewrite bsum_swap. apply bsum_ext. intros a Ha. rewrite bsum_swap. apply bsum_ext. intros c Hc. rewrite bsum_mul_l, bsum_mul_r. reflexivity.
      + apply bsum_ext. intros a Ha. rewrite bsum_mul_l. reflexivity.
    - rewrite <- bsum_add. apply bsum_ext. intros a Ha. rewrite <- bsum_add, <- bsum_mul_l. apply bsum_ext. intros c Hc. ring.
  Qed.
  (** Two models of the same geometry (bond dimensions D and D' may differ) related by a gauge transformation return the same outputs. *)
  Theorem C86_gauge N O D D' F per par par' label path std std' ub ub' rnd rnd' mi mi' m m' (G H : nat -> matK) x B g h y y' g' h' :
    mps_init K N O D F per par label path std ub rnd = Ok mi -> trained mi m -> mps_init K N O D' F per par' label path std' ub' rnd' = Ok mi' -> trained mi' m' -> no_path path ->
    gauges per N D D' G H -> gauged N (m_label m) D D' F O G H (weights_of m) (weights_of m') ->
    shp x = [B; N; F] -> mps_forward K m x g = (Ok y, g') -> mps_forward K m' x h = (Ok y', h') -> 0 < m_label m \/ g = h ->
    exists n, shp y = [n; O] /\ shp y' = [n; O] /\ forall b o, b < n -> o < O -> get y' [b; o] = get y [b; o].
  Proof.
    intros Hi Ht Hi' Ht' Hp [HG He] (Gc & Gb & Go) Hx E E' Hgh.
    destruct (returned K _ _ _ _ _ _ _ _ _ _ _ _ _ x B g y g' Hi Ht Hp Hx E) as (n & Ex & _ & Sy & Hle & HD & Hn & Gy).
    destruct (returned K _ _ _ _ _ _ _ _ _ _ _ _ _ x B h y' h' Hi' Ht' Hp Hx E') as (n' & Ex' & _ & Sy' & Hle' & HD' & Hn' & Gy').
    assert (El : m_label m' = m_label m).
    { rewrite (b_lab K _ _ _ _ _ _ _ _ _ _ (init_built K _ _ _ _ _ _ _ _ _ _ _ _ _ Hi Ht)), (b_lab K _ _ _ _ _ _ _ _ _ _ (init_built K _ _ _ _ _ _ _ _ _ _ _ _ _ Hi' Ht')). reflexivity. }
    rewrite El in *. assert (n' = n).
    { destruct Hgh as [Hl| ->]; [rewrite Hn, Hn' by exact Hl; reflexivity|]. unfold expected in Ex, Ex'.
      destruct (if 0 <? m_label m then Some B else h); [|discriminate]. destruct ((_ =? 1) || _)%bool; [discriminate|].
      destruct (negb per && (D =? 0))%bool; [discriminate|]. destruct (negb per && (D' =? 0))%bool; [discriminate|]. destruct (N =? 0); [congruence|]. destruct (broadcast n0 B); congruence. }
    subst n'. exists n. split; [exact Sy|]. split; [exact Sy'|]. intros b o Hb Ho. rewrite Gy, Gy' by assumption. clear Gy Gy'.
    rewrite !value_pos by exact Hle. set (px := fun (s i : nat) => get x [source B b; s; i]). set (lab := m_label m) in *.
    assert (Hpos : forall t i j, t < S N -> i < D' -> j < D' -> pos_mat K lab F (weights_of m') px o t i j = mmul D (G (0 + t)) (mmul D (pos_mat K lab F (weights_of m) px o t) (H (S (0 + t)))) i j).
    { intros t i j Htt Hii Hjj. cbn [plus]. unfold pos_mat. destruct (Nat.ltb_spec t lab) as [H1|H1].
      - assert (Eb : bond_of lab t = t) by (unfold bond_of; destruct (Nat.ltb_spec t lab); [reflexivity|lia]).
        apply site_gauged; [intros k Hk; rewrite Gc by (try assumption; lia)|rewrite Gb by (try assumption; lia)]; rewrite Eb; reflexivity.
      - destruct (Nat.eqb_spec t lab) as [->|H2]; [apply Go; assumption|].
        assert (Eb : bond_of lab (t - 1) = t) by (unfold bond_of; destruct (Nat.ltb_spec (t - 1) lab); lia).
        apply site_gauged; [intros k Hk; rewrite Gc by (try assumption; lia)|rewrite Gb by (try assumption; lia)]; rewrite Eb; reflexivity. }
    set (X := chain (pchain K D (S N) (pos_mat K lab F (weights_of m) px o))).
    assert (L : forall i j, i < D' -> j < D' -> chain (pchain K D' (S N) (pos_mat K lab F (weights_of m') px o)) i j = mmul D (G 0) (mmul D X (H (S N))) i j).
    { intros i j Hii Hjj. unfold X. refine (eq_trans (pchain_gauge K D D' G H (S N) _ _ 0 _ Hpos _ i j Hii Hjj) _); [|lia|reflexivity]. intros t a c Htt. apply HG. lia. }
    destruct per.
    - unfold mtrace. transitivity (bsum D' (fun k => mmul D (G 0) (mmul D X (H (S N))) k k)); [apply bsum_ext; intros k Hk; apply L; assumption|].
      transitivity (bsum D (fun a => bsum D (fun c => smul (X a c) (mmul D' (H (S N)) (G 0) c a)))).
      + unfold mmul. rewrite bsum_swap. apply bsum_ext. intros a Ha.
        transitivity (bsum D' (fun k => bsum D (fun c => smul (X a c) (smul (H (S N) c k) (G 0 k a))))).
        { apply bsum_ext. intros k Hk. rewrite <- bsum_mul_l. apply bsum_ext. intros c Hc. ring. }
        rewrite bsum_swap. apply bsum_ext. intros c Hc. apply bsum_mul_l.
      + apply bsum_ext. intros a Ha. transitivity (bsum D (fun c => smul (X a c) (delta c a))); [apply bsum_ext; intros c Hc; rewrite He by assumption; reflexivity|]. apply (bsum_delta_r K D a (fun c => X a c) Ha).
    - destruct He as [He0 He1]. rewrite L by auto. specialize (HD eq_refl). unfold mmul at 1. transitivity (bsum D (fun k => smul (delta 0 k) (mmul D X (H (S N)) k 0))); [apply bsum_ext; intros k Hk; rewrite He0 by exact Hk; reflexivity|].
      rewrite (bsum_delta_l K D 0 (fun k => mmul D X (H (S N)) k 0) HD). unfold mmul. transitivity (bsum D (fun k => smul (X 0 k) (delta k 0))); [apply bsum_ext; intros k Hk; rewrite He1 by exact Hk; reflexivity|].
      apply (bsum_delta_r K D 0 (fun k => X 0 k) HD).
  Qed.

  (** ** C87: the mirror image *)
  Definition mirror_of (N D F O : nat) (w w' : weights K) : Prop :=
    (forall s l r i, s < N -> l < D -> r < D -> i < F -> w_core w' s l r i = w_core w (N - 1 - s) r l i) /\
    (forall s l r, s < N -> l < D -> r < D -> w_bias w' s l r = w_bias w (N - 1 - s) r l) /\
    (forall o l r, o < O -> l < D -> r < D -> w_out w' o l r = w_out w o r l).
  (** A model and its mirror image (label_site counted from the other end) return the same outputs on an image and its mirror image. *)
  Theorem C87_mirror N O D F per par par' label label' path path' std std' ub ub' rnd rnd' mi mi' m m' x x' B g h y y' g' h' :
    mps_init K N O D F per par label path std ub rnd = Ok mi -> trained mi m -> mps_init K N O D F per par' label' path' std' ub' rnd' = Ok mi' -> trained mi' m' -> no_path path -> no_path path' ->
    m_label m' = N - m_label m -> mirror_of N D F O (weights_of m) (weights_of m') ->
    shp x = [B; N; F] -> shp x' = [B; N; F] -> (forall b s i, b < B -> s < N -> i < F -> get x' [b; s; i] = get x [b; N - 1 - s; i]) ->
    0 < m_label m < N -> mps_forward K m x g = (Ok y, g') -> mps_forward K m' x' h = (Ok y', h') ->
    shp y = [B; O] /\ shp y' = [B; O] /\ forall b o, b < B -> o < O -> get y' [b; o] = get y [b; o].
  Proof.
    intros Hi Ht Hi' Ht' Hp Hp' El (Gc & Gb & Go) Hx Hx' Hxx Hlab E E'.
    destruct (returned K _ _ _ _ _ _ _ _ _ _ _ _ _ x B g y g' Hi Ht Hp Hx E) as (n & Ex & _ & Sy & Hle & HD & Hn & Gy).
    destruct (returned K _ _ _ _ _ _ _ _ _ _ _ _ _ x' B h y' h' Hi' Ht' Hp' Hx' E') as (n' & Ex' & _ & Sy' & Hle' & HD' & Hn' & Gy').
    rewrite Hn in * by lia. rewrite Hn' in * by lia. split; [exact Sy|]. split; [exact Sy'|]. intros b o Hb Ho. rewrite Gy, Gy' by assumption. clear Gy Gy'.
    assert (Q : source B b = b) by (unfold source; destruct (Nat.eqb_spec B 1); lia). rewrite Q, !value_pos by assumption. set (lab := m_label m) in *. rewrite El.
    assert (Hsite : forall s i j, s < N -> i < D -> j < D -> site_matrix F (w_core (weights_of m') s) (w_bias (weights_of m') s) (fun k => get x' [b; s; k]) i j =
      site_matrix F (w_core (weights_of m) (N - 1 - s)) (w_bias (weights_of m) (N - 1 - s)) (fun k => get x [b; N - 1 - s; k]) j i).
    { intros s i j Hs Hii Hjj. unfold site_matrix. rewrite Gb by assumption. f_equal. apply bsum_ext. intros k Hk. rewrite Gc, Hxx by assumption. reflexivity. }
    assert (Hpos : forall t i j, t < S N -> i < D -> j < D -> pos_mat K (N - lab) F (weights_of m') (fun s k => get x' [b; s; k]) o t i j = pos_mat K lab F (weights_of m) (fun s k => get x [b; s; k]) o (S N - 1 - t) j i).
    { intros t i j Htt Hii Hjj. unfold pos_mat. destruct (Nat.ltb_spec t (N - lab)) as [H1|H1].
      - destruct (Nat.ltb_spec (S N - 1 - t) lab); [lia|]. destruct (Nat.eqb_spec (S N - 1 - t) lab); [lia|]. replace (S N - 1 - t - 1) with (N - 1 - t) by lia. apply Hsite; try assumption; lia.
      - destruct (Nat.eqb_spec t (N - lab)) as [->|H2].
        + destruct (Nat.ltb_spec (S N - 1 - (N - lab)) lab); [lia|]. destruct (Nat.eqb_spec (S N - 1 - (N - lab)) lab); [|lia]. apply Go; assumption.
        + destruct (Nat.ltb_spec (S N - 1 - t) lab); [|lia]. replace (S N - 1 - t) with (N - 1 - (t - 1)) by lia. apply Hsite; try assumption; lia. }
    pose proof (pchain_mirror K D (S N) _ _ Hpos) as L.
    destruct per; [|apply L; auto]. unfold mtrace. apply bsum_ext. intros k Hk. apply L; assumption.
  Qed.
End Sym.

(** ** Concrete cases that meet the hypotheses: models with 4 inputs, 2 outputs, bond dimension 2, label_site 2 *)
Section Examples.
  Notation w3 := (nat -> nat -> nat -> Z).
  Definition a_model (per ub : bool) (c : nat -> nat -> nat -> nat -> Z) (bi : nat -> nat -> Z) (o : w3) : mps Z_cring :=
    let region s0 := InputRegion (K := Z_cring) (mkT [2; 2; 2; 2] (fun i => c (s0 + nth 0 i 0) (nth 1 i 0) (nth 2 i 0) (nth 3 i 0))) ub
                       (if ub then Some (mkT [1; 2; 2] (fun i => bi (nth 1 i 0) (nth 2 i 0))) else None) in
    mkMps Z_cring 4 2 2 2 per false 2 PNone ub [region 0; OutputSite (K := Z_cring) (mkT [2; 2; 2] (fun i => o (nth 0 i 0) (nth 1 i 0) (nth 2 i 0))); region 2] None.
  Definition start (per ub : bool) : mps Z_cring := get_mps (mps_init Z_cring 4 2 2 2 per false None PNone (1%Z : Z_cring) ub tick).
  Lemma start_ok per ub : mps_init Z_cring 4 2 2 2 per false None PNone (1%Z : Z_cring) ub tick = Ok (start per ub).
  Proof. destruct (C34_constructor Z_cring 4 2 2 2 per false None PNone (1%Z : Z_cring) ub tick Logic.I (or_introl (or_introl eq_refl))) as (m & Em & _). unfold start. rewrite Em. reflexivity. Qed.
  Lemma a_trained per ub c bi o : trained (start per ub) (a_model per ub c bi o).
  Proof.
    split; [|destruct per, ub; vm_compute; reflexivity]. unfold start, a_model. destruct per, ub; (vm_compute; repeat (constructor; try (vm_compute; reflexivity))).
  Qed.
  Lemma a_returns per ub c bi o x : shp x = [2; 4; 2] -> exists y, mps_forward Z_cring (a_model per ub c bi o) x None = (Ok y, Some 2).
  Proof.
    intros Hx. destruct (returns Z_cring 4 2 2 2 per false None PNone (1%Z : Z_cring) ub tick (start per ub) (a_model per ub c bi o) x 2 None 2 (start_ok per ub) (a_trained per ub c bi o) (or_introl eq_refl) Hx) as (y & E & _); [destruct per; reflexivity|eauto].
  Qed.
  Ltac four s := destruct s as [|[|[|[|s]]]]; [..|exfalso; lia].
  Ltac two s := destruct s as [|[|s]]; [..|exfalso; lia].
  Definition ca : nat -> nat -> nat -> nat -> Z := fun s l r i => Z.of_nat (1 + s + 2 * l + 3 * r + 5 * i).
  Definition oa : w3 := fun o l r => Z.of_nat (2 + o + l + 4 * r).
  Definition ba : nat -> nat -> Z := fun l r => Z.of_nat (l + 2 * r).
  Lemma a_core per ub c bi o s l r i : s < 4 -> w_core (weights_of (a_model per ub c bi o)) s l r i = c s l r i.
  Proof. intros Hs. four s; reflexivity. Qed.
  Lemma a_bias per c bi o s l r : s < 4 -> w_bias (weights_of (a_model per true c bi o)) s l r = bi l r.
  Proof. intros Hs. four s; reflexivity. Qed.
  Lemma a_no_bias per c bi o s l r : s < 4 -> w_bias (weights_of (a_model per false c bi o)) s l r = 0%Z.
  Proof. intros Hs. four s; reflexivity. Qed.
  Lemma a_out per ub c bi o k l r : w_out (weights_of (a_model per ub c bi o)) k l r = o k l r.
  Proof. destruct ub; reflexivity. Qed.

  (** C83: the rows of a batch in the other order *)
  Example C83_hyps_met : let x := pix 2 4 2 in let x' := mkT [2; 4; 2] (fun i => get x (1 - nth 0 i 0 :: tl i)) in let m := a_model false true ca ba oa in
    (exists y, mps_forward Z_cring m x None = (Ok y, Some 2)) /\ (exists y, mps_forward Z_cring m x' None = (Ok y, Some 2)) /\ 0 < m_label m /\
    (forall s i, get x' [0; s; i] = get x [1; s; i]) /\ exists s i, get x' [1; s; i] <> get x [1; s; i].
  Proof.
    cbv zeta. split; [apply a_returns; reflexivity|]. split; [apply a_returns; reflexivity|]. split; [vm_compute; lia|]. split; [reflexivity|]. exists 0, 0. vm_compute. discriminate.
  Qed.
  (** C84: cores at site 3, with a = -1, b = 2 and biases; output cores, with a = 3, b = 5 *)
  Definition cmix (k : Z) : nat -> nat -> nat -> nat -> Z := fun s l r i => if s =? 3 then (k * ca s l r i)%Z else ca s l r i.
  Example C84_hyps_met :
    mixes_core Z_cring 4 2 2 2 3 (-1)%Z 2%Z (weights_of (a_model true true (cmix 1) ba oa)) (weights_of (a_model true true (cmix 3) ba oa)) (weights_of (a_model true true (cmix 5) ba oa)) /\
    mixes_output Z_cring 4 2 2 2 3%Z 5%Z (weights_of (a_model true true ca ba oa)) (weights_of (a_model true true ca ba (fun o l r => (2 * oa o l r)%Z))) (weights_of (a_model true true ca ba (fun o l r => (13 * oa o l r)%Z))) /\
    forall c o, exists y, mps_forward Z_cring (a_model true true c ba o) (pix 2 4 2) None = (Ok y, Some 2).
  Proof.
    split; [|split].
    - split; [|split; [|split]].
      + intros t l r i Ht Hne _ _ _. rewrite !a_core by exact Ht. unfold cmix. destruct (Nat.eqb_spec t 3); [contradiction|]. split; reflexivity.
      + intros l r i _ _ _. rewrite !a_core by lia. unfold cmix. cbn [Nat.eqb]. cbn [smul sadd rops Z_cring Z_ops]. lia.
      + intros t l r Ht _ _. rewrite !a_bias by exact Ht. split; reflexivity.
      + intros o l r _ _ _. rewrite !a_out. split; reflexivity.
    - split; [|split].
      + intros t l r i Ht _ _ _. rewrite !a_core by exact Ht. split; reflexivity.
      + intros t l r Ht _ _. rewrite !a_bias by exact Ht. split; reflexivity.
      + intros o l r _ _ _. rewrite !a_out. cbn [smul sadd rops Z_cring Z_ops]. lia.
    - intros c o. apply a_returns. reflexivity.
  Qed.
  (** C85: a fresh model with init_std = 0; a vanishing core at site 1 *)
  Example C85_hyps_met : (exists m y, mps_init Z_cring 4 2 2 2 true false None PNone (0%Z : Z_cring) true tick = Ok m /\ trained m m /\ mps_forward Z_cring m (pix 2 4 2) None = (Ok y, Some 2)) /\
    (forall l r i, w_core (weights_of (a_model true false (fun s l r i => if s =? 1 then 0%Z else ca s l r i) ba oa)) 1 l r i = 0%Z).
  Proof.
    split; [|reflexivity].
    destruct (C34_constructor Z_cring 4 2 2 2 true false None PNone (0%Z : Z_cring) true tick Logic.I (or_introl (or_introl eq_refl))) as (m & Em & Ht & El).
    destruct (returns Z_cring 4 2 2 2 true false None PNone (0%Z : Z_cring) true tick m m (pix 2 4 2) 2 None 2 Em Ht (or_introl eq_refl) eq_refl) as (y & E & _); [rewrite El; reflexivity|eauto].
  Qed.
  (** C86: open boundary, G_t = [[1, t], [0, 1]], H_t = [[1, -t], [0, 1]] *)
  Definition Gt (t i j : nat) : Z := if i =? j then 1%Z else if (i =? 0) && (j =? 1) then Z.of_nat t else 0%Z.
  Definition Ht (t i j : nat) : Z := if i =? j then 1%Z else if (i =? 0) && (j =? 1) then (- Z.of_nat t)%Z else 0%Z.
  Definition cg : nat -> nat -> nat -> nat -> Z := fun s l r i =>
    mmul (K := Z_ops) 2 (Gt (bond_of 2 s)) (mmul (K := Z_ops) 2 (fun l r => ca s l r i) (Ht (S (bond_of 2 s)))) l r.
  Definition og : w3 := fun o l r => mmul (K := Z_ops) 2 (Gt 2) (mmul (K := Z_ops) 2 (oa o) (Ht 3)) l r.
  Example C86_hyps_met : gauges Z_cring false 4 2 2 Gt Ht /\
    gauged Z_cring 4 2 2 2 2 2 Gt Ht (weights_of (a_model false false ca ba oa)) (weights_of (a_model false false cg ba og)) /\
    (exists y, mps_forward Z_cring (a_model false false ca ba oa) (pix 2 4 2) None = (Ok y, Some 2)) /\
    (exists y, mps_forward Z_cring (a_model false false cg ba og) (pix 2 4 2) None = (Ok y, Some 2)) /\ cg 0 0 1 0 <> ca 0 0 1 0.
  Proof.
    split; [|split; [|split; [|split]]].
    - split; [|split].
      + intros t i j _ Hi Hj. two i; two j; unfold mmul, Gt, Ht, delta; cbn [bsum Nat.eqb andb smul sadd s0 s1 rops Z_cring Z_ops]; lia.
      + intros j Hj. two j; reflexivity.
      + intros i Hi. two i; reflexivity.
    - split; [|split].
      + intros s l r i Hs Hl Hr Hi. rewrite a_core by exact Hs. unfold cg. unfold mmul. apply bsum_ext. intros a Ha. f_equal. apply bsum_ext. intros b Hb. f_equal. symmetry. apply a_core. exact Hs.
      + intros s l r Hs Hl Hr. rewrite a_no_bias by exact Hs. symmetry. unfold mmul. apply (bsum_zero Z_cring). intros a Ha.
        rewrite (bsum_zero Z_cring); [apply Z.mul_0_r|]. intros b Hb. rewrite a_no_bias by exact Hs. reflexivity.
      + intros o l r Ho Hl Hr. rewrite a_out. reflexivity.
    - apply a_returns. reflexivity.
    - apply a_returns. reflexivity.
    - vm_compute. discriminate.
  Qed.
  (** C87 *)
  Example C87_hyps_met : let m := a_model false true ca ba oa in let m' := a_model false true (fun s l r i => ca (3 - s) r l i) (fun l r => ba r l) (fun o l r => oa o r l) in
    let x := pix 2 4 2 in let x' := mkT [2; 4; 2] (fun i => get x [nth 0 i 0; 3 - nth 1 i 0; nth 2 i 0]) in
    mirror_of Z_cring 4 2 2 2 (weights_of m) (weights_of m') /\ m_label m' = 4 - m_label m /\ 0 < m_label m < 4 /\
    (exists y, mps_forward Z_cring m x None = (Ok y, Some 2)) /\ (exists y, mps_forward Z_cring m' x' None = (Ok y, Some 2)) /\ ca 0 0 1 0 <> ca 3 1 0 0.
  Proof.
    cbv zeta. split; [|split; [reflexivity|split; [cbn; lia|split; [apply a_returns; reflexivity|split; [apply a_returns; reflexivity|vm_compute; discriminate]]]]].
    split; [|split].
    - intros s l r i Hs _ _ _. rewrite !a_core by lia. f_equal. 
    - intros s l r Hs _ _. rewrite !a_bias by lia. reflexivity.
    - intros o l r _ _ _. rewrite !a_out. reflexivity.
  Qed.
End Examples.
Print Assumptions C83_rows.
Print Assumptions C84_linear_core.
Print Assumptions C84_linear_output.
Print Assumptions C85_fresh_weights.
Print Assumptions C85_fresh_output.
Print Assumptions C85_zero_core.
Print Assumptions C86_gauge.
Print Assumptions C87_mirror.
