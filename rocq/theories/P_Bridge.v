(** * P_Bridge: C116, the four model classes compute one contraction: TI_MPS, ProbMPS and ProbUnifMPS are periodic MPS. *)
From Coq Require Import Ring_theory Ring Reals Lra.
From Verif Require Import Base Scalars Tensor Utils2 MpsBase ProbMps Spec ModelSpec LinAlg ProbProofs EmbProofs P_Prob P_ZeroExact Contractables Utils TorchMps TmSpec TmProofs TmFinal P_Mps P_Mps2 P_Mps3 P_Mps4 P_TiMps P_MpsCap P_Larger P_Super LogNorm P_Sym2.
Open Scope nat_scope.

Section Bridge.
  Variable K : cring.
  Add Ring KrBr : (rth K).
  (** closing a chain with the outer product of the two boundary vectors *)
  Lemma close_chain D (v w : vec K) (l : list (nat * mat K)) : 0 < D -> cols K D l = D ->
    mtrace D (chain (l ++ [(D, fun i j => smul (w i) (v j))])) = sandwich D D v (chain l) w.
  Proof.
    intros HD Hc. unfold mtrace, sandwich. apply bsum_ext. intros k Hk. rewrite (chain_app K D) by exact Hk. rewrite Hc. unfold mmul.
    apply bsum_ext. intros j Hj. rewrite (chain_single K D _ j k Hk). ring.
  Qed.
  Lemma cols_map {X} D (f : X -> mat K) js : cols K D (map (fun s => (D, f s)) js) = D.
  Proof. induction js as [|s js IH]; [reflexivity|]. cbn [map]. rewrite (cols_cons K). exact IH. Qed.

  (** an MPS with label_site at the end and periodic boundary conditions, with the same matrix product for every sample *)
  Lemma closed_value N O D F par path std ub rnd m0' fm core (bias : mat K) (v : vec K) (w : nat -> vec K) :
    mps_init K N O D F true par (Some (Z.of_nat N)) path std ub rnd = Ok m0' -> no_path path -> 2 <= N -> 0 < D -> (ub = false -> forall l r, bias l r = s0) ->
    exists m', trained m0' m' /\ m_fmap m' = fm /\ m_input m' = N /\ m_feature m' = F /\ path_true (m_path m') = Ok false /\
      forall x B g, shp x = [B; N; F] -> exists out, region_forward K (m_modules m') (m_periodic m') (m_parallel m') x g = (Ok out, Some B) /\ shp out = [B; O] /\
        forall b o, b < B -> o < O -> get out [b; o] =
          sandwich D D v (chain (map (fun s => (D, site_matrix F (fun l r i => core s l r i) bias (fun i => get x [b; s; i]))) (seq 0 N))) (w o).
  Proof.
    intros Hi Hp HN HD Hub.
    assert (T0 : trained m0' m0') by (eapply init_trained; exact Hi).
    pose proof (init_built K _ _ _ _ _ _ _ _ _ _ _ _ _ Hi T0) as Hb0. cbv beta iota zeta in Hb0. rewrite Nat2Z.id in Hb0.
    destruct (realise K core (fun _ => bias) (fun o l r => smul (w o l) (v r)) N O D F N ub m0' (b_lab K _ _ _ _ _ _ _ _ _ _ Hb0) (le_n N) (b_form K _ _ _ _ _ _ _ _ _ _ Hb0)) as (mods & Hmods & HW).
    set (m' := mkMps K (m_input m0') (m_output m0') (m_bond m0') (m_feature m0') (m_periodic m0') (m_parallel m0') (m_label m0') (m_path m0') (m_use_bias m0') mods fm).
    assert (Htr : trained m0' m') by (split; [exact Hmods|reflexivity]).
    destruct (HW m' eq_refl (b_lab K _ _ _ _ _ _ _ _ _ _ Hb0)) as (W1 & W2 & W3). clear HW.
    pose proof (init_built K _ _ _ _ _ _ _ _ _ _ _ _ _ Hi Htr) as Hb'. cbv beta iota zeta in Hb'. rewrite Nat2Z.id in Hb'.
    exists m'. split; [exact Htr|]. split; [reflexivity|]. split; [exact (b_in K _ _ _ _ _ _ _ _ _ _ Hb')|]. split; [exact (b_feat K _ _ _ _ _ _ _ _ _ _ Hb')|].
    split; [rewrite (b_path K _ _ _ _ _ _ _ _ _ _ Hb'); apply no_path_off; exact Hp|].
    intros x B g Hx. pose proof (region_value K N O D F true par (m_parallel m') N path ub m' x B g Hb' ltac:(lia) ltac:(lia) ltac:(left; lia) ltac:(cbn; lia) Hx) as (out & Eo & So & G).
    rewrite (b_per K _ _ _ _ _ _ _ _ _ _ Hb'). exists out. split; [exact Eo|]. split; [exact So|]. intros b o Hb Ho. rewrite (G b o Hb Ho). unfold value, ring_value, factors.
    rewrite Nat.sub_diag. cbn [seq map]. rewrite app_nil_r.
    rewrite <- close_chain by (try exact HD; apply cols_map). unfold mtrace. apply bsum_ext. intros k Hk.
    apply (same_fac_chain K). apply Forall2_app.
    - assert (Q : forall js, (forall s, In s js -> s < N) -> same_fac K (map (fun s => (D, site_matrix F (w_core (weights_of m') s) (w_bias (weights_of m') s) (fun i => get x [b; s; i]))) js)
        (map (fun s => (D, site_matrix F (fun l r i => core s l r i) bias (fun i => get x [b; s; i]))) js)).
      { induction js as [|s js IH]; intros H; [constructor|]. cbn [map]. constructor; [|apply IH; intros; apply H; right; assumption].
        split; [reflexivity|]. intros i j. cbn [snd]. specialize (H s (or_introl eq_refl)). unfold site_matrix. rewrite (W2 s i j H). f_equal.
        - apply bsum_ext. intros f _. rewrite (W1 s i j f H). reflexivity.
        - destruct ub; [reflexivity|]. symmetry. apply Hub. reflexivity. }
      apply Q. intros s Hs. apply in_seq in Hs. lia.
    - constructor; [|constructor]. split; [reflexivity|]. intros i j. cbn [snd]. apply W3.
  Qed.

  Theorem C116_ti N O D F par par' fe std std' ub ub' fb over path rnd rnd' m0 m m0' :
    ti_init K O D F par fe std ub fb over rnd = Ok m0 -> ti_trained m0 m ->
    mps_init K N O D F true par' (Some (Z.of_nat N)) path std' ub' rnd' = Ok m0' -> no_path path -> 2 <= N -> 0 < D -> (ub' = false -> ub = false) ->
    exists m', trained m0' m' /\ m_fmap m' = t_fmap m /\
      forall x g, shp x = [size 0 x; N; F] \/ shp x = [size 0 x; N] -> same_call K (ti_forward K m (TTensor x) g) (mps_forward K m' x g).
  Proof.
    intros Hi Ht Hi' Hp HN HD Hub. pose proof (ti_init_built K _ _ _ _ _ _ _ _ _ _ _ _ Hi Ht) as Hb.
    destruct (closed_value N O D F par' path std' ub' rnd' m0' (t_fmap m) (fun _ l r i => get (t_core m) [l; r; i]) (ti_bias_mat m) (fun l => get (t_vec m) [l]) (fun o r => get (t_mat m) [r; o]) Hi' Hp HN HD)
      as (m' & Htr & Hfm & Ein & Efe & Epa & V).
    { intros E. pose proof (tb_ub _ _ _ _ _ _ _ _ Hb) as Q. rewrite (Hub E) in Q. intros l r. unfold ti_bias_mat. rewrite Q. reflexivity. }
    exists m'. split; [exact Htr|]. split; [exact Hfm|]. intros x g Hx.
    assert (G : forall y B, shp y = [B; N; F] -> same_call K (after_format K m y g) (region_forward K (m_modules m') (m_periodic m') (m_parallel m') y g)).
    { intros y B Hy. destruct (after_format_value K _ _ _ _ _ _ _ y B N g Hb Hy ltac:(lia)) as (T1 & E1 & S1 & G1). destruct (V y B g Hy) as (T2 & E2 & S2 & G2).
      rewrite E1, E2. cbn [same_call]. exists T2. split; [reflexivity|]. split; [congruence|]. intros i Hii. rewrite S1 in Hii. destruct (index2 _ _ _ Hii) as (r & o & -> & Hr & Ho).
      rewrite G1, G2 by assumption. unfold ti_value. rewrite (tb_bond _ _ _ _ _ _ _ _ Hb), (tb_feat _ _ _ _ _ _ _ _ Hb). reflexivity. }
    rewrite ti_forward_eq. unfold mps_forward, mbind, lift. rewrite (route_off K _ x Epa). destruct Hx as [Hx|Hx].
    - rewrite (ti_format_pre K m x (size 0 x) N F (tb_feat _ _ _ _ _ _ _ _ Hb) Hx). rewrite (mps_embed_pre K m' x (size 0 x)) by (rewrite Ein, Efe; exact Hx). apply (G x (size 0 x) Hx).
    - set (B := size 0 x) in *. unfold mps_embed, ti_format, ti_embed. rewrite Hfm, Ein, Efe, (tb_feat _ _ _ _ _ _ _ _ Hb). unfold ndim. rewrite Hx. cbn [List.length Nat.eqb orb assert_ rbind].
      assert (E1 : size 1 x = N) by (unfold size; rewrite Hx; reflexivity). rewrite E1, Nat.eqb_refl. cbn [assert_ rbind]. destruct (t_fmap m) as [f|].
      + destruct (embed_map K f x) as [e|ex]; cbn [rbind]; [|reflexivity]. destruct (list_eqb (shp e) [size 0 x; N; F]) eqn:El; cbn [assert_ rbind]; [|reflexivity].
        apply list_eqb_eq in El. unfold size at 1. rewrite El. cbn [List.length Nat.eqb assert_ rbind nth]. rewrite Nat.eqb_refl. cbn [assert_ rbind]. exact (G e _ El).
      + destruct (Nat.eqb_spec F 2) as [E2|E2]; cbn [rbind]; [|reflexivity].
        assert (Es : shp (embed_default K x) = [B; N; F]) by (unfold embed_default; cbn [shp]; rewrite E1, E2; reflexivity).
        unfold size at 1. rewrite Es. cbn [List.length Nat.eqb assert_ rbind nth]. rewrite Nat.eqb_refl. cbn [assert_ rbind]. exact (G _ _ Es).
  Qed.
End Bridge.

Section BridgeProb.
  Variable K : numfield.
  Add Ring KrBr2 : (rth K).
  Lemma sites_map {X} D (site : nat -> X -> mat K) (f : nat -> X) n : forall t, sites D site t (map f (seq t n)) = map (fun s => (D, site s (f s))) (seq t n).
  Proof. induction n as [|n IH]; intros t; [reflexivity|]. cbn [seq map sites]. rewrite IH. reflexivity. Qed.
  Lemma word_map (w : list nat) : w = map (fun s => nth s w 0) (seq 0 (List.length w)).
  Proof. induction w as [|a w IH]; [reflexivity|]. cbn [List.length seq map]. f_equal. rewrite <- seq_shift, map_map. exact IH. Qed.
  (** the contraction of a batch row of feature vectors *)
  Definition contraction (uniform : bool) (m : pmps K) (n d D : nat) (xv : nat -> nat -> K) : K :=
    sandwich D D (edge_at (pm_edge K m) 0) (chain (map (fun s => (D, site_matrix d (fun l r i => entry (pm_core K m) uniform s i l r) (bias_at (pm_bias K m)) (xv s))) (seq 0 n))) (edge_at (pm_edge K m) 1).
  Lemma contraction_vectors uniform m n d D v b : psi K uniform m n d D (TFloat v) b = contraction uniform m n d D (fun s i => get v [b; s; i]).
  Proof. unfold psi, row_amp, amplitude, row_vectors. rewrite (sites_map D _ (fun t k => get v [b; t; k])). reflexivity. Qed.
  Lemma contraction_letters uniform m n d D (f : nat -> nat) (xv : nat -> nat -> K) : (forall s, s < n -> f s < d) -> (forall s i, s < n -> i < d -> xv s i = if i =? f s then s1 else s0) ->
    amplitude D (edge_at (pm_edge K m) 0) (edge_at (pm_edge K m) 1) (letter_site (pm_core K m) uniform (pm_bias K m)) (map f (seq 0 n)) = contraction uniform m n d D xv.
  Proof.
    intros Hf Hx. unfold amplitude, contraction. rewrite sites_map. unfold sandwich. apply bsum_ext. intros i _. apply bsum_ext. intros j _. f_equal. f_equal.
    apply (same_fac_chain K). assert (Q : forall js, (forall s, In s js -> s < n) ->
      same_fac K (map (fun s => (D, letter_site (pm_core K m) uniform (pm_bias K m) s (f s))) js)
        (map (fun s => (D, site_matrix d (fun l r i => entry (pm_core K m) uniform s i l r) (bias_at (pm_bias K m)) (xv s))) js)).
    { induction js as [|s js IH]; intros H; [constructor|]. cbn [map]. constructor; [|apply IH; intros; apply H; right; assumption].
      split; [reflexivity|]. intros l r. cbn [snd]. specialize (H s (or_introl eq_refl)). unfold letter_site, site_matrix. f_equal.
      rewrite (bsum_ext d _ (fun k => if k =? f s then entry (pm_core K m) uniform s k l r else s0)) by (intros k Hk; rewrite (Hx s k H Hk); destruct (k =? f s); ring).
      symmetry. exact (bsum_delta K d (f s) (fun k => entry (pm_core K m) uniform s k l r) (Hf s H)). }
    apply Q. intros s Hs. apply in_seq in Hs. lia.
  Qed.

  (** feature vectors as they are, letters as one-hot vectors *)
  Definition vectors_of (batch n d : nat) (x : tin K) (v : tensor K) : Prop :=
    shp v = [batch; n; d] /\ match x with TLong ix => onehot_of K batch n d ix v | TFloat y => forall b t k, b < batch -> t < n -> k < d -> get v [b; t; k] = get y [b; t; k] end.
  Lemma contraction_ext uniform m n d D xv xv' : (forall s i, s < n -> i < d -> xv s i = xv' s i) -> contraction uniform m n d D xv = contraction uniform m n d D xv'.
  Proof.
    intros H. unfold contraction, sandwich. apply bsum_ext. intros i _. apply bsum_ext. intros j _. f_equal. f_equal. apply (same_fac_chain K).
    assert (Q : forall js, (forall s, In s js -> s < n) -> same_fac K
        (map (fun s => (D, site_matrix d (fun l r i => entry (pm_core K m) uniform s i l r) (bias_at (pm_bias K m)) (xv s))) js)
        (map (fun s => (D, site_matrix d (fun l r i => entry (pm_core K m) uniform s i l r) (bias_at (pm_bias K m)) (xv' s))) js)).
    { induction js as [|s js IH]; intros Hj; [constructor|]. cbn [map]. constructor; [|apply IH; intros; apply Hj; right; assumption].
      split; [reflexivity|]. intros l r. cbn [snd]. unfold site_matrix. f_equal. apply bsum_ext. intros k Hk. rewrite (H s k (Hj s (or_introl eq_refl)) Hk). reflexivity. }
    apply Q. intros s Hs. apply in_seq in Hs. lia.
  Qed.
  Lemma contraction_row uniform m n d D x v batch b : wf_input x batch n d -> vectors_of batch n d x v -> b < batch ->
    psi K uniform m n d D x b = contraction uniform m n d D (fun s i => get v [b; s; i]).
  Proof.
    intros Hx [_ Hv] Hb. destruct x as [ix|y].
    - unfold psi, row_amp, row_letters. destruct Hx as [_ Hx]. apply contraction_letters; intros s; [intros Hs; specialize (Hx b s Hb Hs); lia|].
      intros i Hs Hi. apply Hv; assumption.
    - rewrite contraction_vectors. apply contraction_ext. intros s i Hs Hi. symmetry. apply Hv; assumption.
  Qed.

  Theorem C116_prob (uniform : bool) (m : pmps K) (n d D : nat) par path std ub rnd m0' :
    shapes_of K uniform m n d D -> pm_emb K m = None -> 2 <= n ->
    mps_init K n 1 D d true par (Some (Z.of_nat n)) path std ub rnd = Ok m0' -> no_path path -> (ub = false -> pm_bias K m = None) ->
    exists (m' : mps K) (score : list nat -> K), trained m0' m' /\
      (forall w g, In w (words d n) -> exists o, mps_forward K m' (hot_word (K := K) n d w) g = (Ok o, Some 1) /\ shp o = [1; 1] /\ get o [0; 0] = score w) /\
      forall (x : tin K) (v : tensor K) slim par' batch g, wf_input x batch n d -> vectors_of batch n d x v -> (slim = true -> pm_bias K m = None) ->
        exists o, mps_forward K m' v g = (Ok o, Some batch) /\ shp o = [batch; 1] /\
          let Zn := lsum (K := R_ops) (words d n) (fun w => abs2 (K := K) (score w)) in
          match snd (fwd K uniform m x slim par') with
          | Ok T => (0 < Zn)%R /\ shp T = [batch] /\ forall b, b < batch ->
              (get o [b; 0] = s0 -> get T [b] = XNInf) /\ (get o [b; 0] <> s0 -> get T [b] = XFin (ln (abs2 (get o [b; 0]) / Zn)))
          | Err er => er = AssertionError /\ (Zn = 0%R \/ exists b, b < batch /\ get o [b; 0] = s0)
          end.
  Proof.
    intros Hs He Hn Hi Hp Hub.
    assert (HD : 0 < D) by (destruct uniform; cbn [shapes_of] in Hs; [unfold shapes_unif in Hs|unfold shapes_fixed in Hs]; tauto).
    destruct (closed_value K n 1 D d par path std ub rnd m0' None (fun s l r i => entry (pm_core K m) uniform s i l r) (bias_at (pm_bias K m)) (edge_at (pm_edge K m) 0) (fun _ => edge_at (pm_edge K m) 1) Hi Hp Hn HD)
      as (m' & Htr & _ & Ein & Efe & Epa & V).
    { intros E l r. rewrite (Hub E). reflexivity. }
    set (score := fun w => amplitude D (edge_at (pm_edge K m) 0) (edge_at (pm_edge K m) 1) (letter_site (pm_core K m) uniform (pm_bias K m)) w).
    assert (F : forall v B g, shp v = [B; n; d] -> exists o, mps_forward K m' v g = (Ok o, Some B) /\ shp o = [B; 1] /\ forall b, b < B -> get o [b; 0] = contraction uniform m n d D (fun s i => get v [b; s; i])).
    { intros v B g Hv. destruct (V v B g Hv) as (o & Eo & So & G). exists o. split; [|split; [exact So|]].
      - unfold mps_forward, mbind, lift. rewrite (route_off K _ v Epa), (mps_embed_pre K m' v B) by (rewrite Ein, Efe; exact Hv). exact Eo.
      - intros b Hb. exact (G b 0 Hb Nat.lt_0_1). }
    exists m', score. split; [exact Htr|]. split.
    - intros w g Hw. destruct (F (hot_word (K := K) n d w) 1 g eq_refl) as (o & Eo & So & G). exists o. split; [exact Eo|]. split; [exact So|]. rewrite (G 0 Nat.lt_0_1). symmetry.
      pose proof (words_length d n w Hw) as Hl. unfold score. rewrite (word_map w) at 1. rewrite Hl. apply contraction_letters.
      + intros s Hs'. apply (words_letters d n w Hw). apply nth_In. rewrite Hl. exact Hs'.
      + intros s i _ _. reflexivity.
    - intros x v slim par' batch g Hx Hv Hsl. destruct (F v batch g (proj1 Hv)) as (o & Eo & So & G). exists o. split; [exact Eo|]. split; [exact So|]. cbv zeta.
      pose proof (C90_forward_exact K uniform m x slim par' batch n d D Hs He Hx ltac:(lia) Hsl) as X. cbv zeta in X.
      change (Zfun K uniform m n d D) with (lsum (K := R_ops) (words d n) (fun w => abs2 (K := K) (score w))) in X.
      assert (A : forall b, b < batch -> get o [b; 0] = psi K uniform m n d D x b) by (intros b Hb; rewrite (G b Hb); symmetry; apply (contraction_row uniform m n d D x v batch); assumption).
      destruct (snd (fwd K uniform m x slim par')) as [T|er].
      + destruct X as (HZ & _ & ST & GT). split; [exact HZ|]. split; [exact ST|]. intros b Hb. rewrite (A b Hb). exact (GT b Hb).
      + destruct X as (Er & X). split; [exact Er|]. destruct X as [X|(b & Hb & X)]; [left; exact X|]. right. exists b. split; [exact Hb|]. rewrite (A b Hb). exact (lost_zero K uniform m n d D x slim par' b X).
  Qed.
End BridgeProb.

Print Assumptions C116_ti.
Print Assumptions C116_prob.

(** ** the hypotheses are met *)
(** a TI_MPS of bond dimension 2 with free or fixed ends and a fixed bias as an MPS for three sites *)
Example C116_ti_met : forall fe : bool, exists (m0 : ti_mps Z_cring) (m0' : mps Z_cring),
  ti_init Z_cring 2 2 2 false fe (1%Z : Z_cring) true true (fun _ z => z) tick = Ok m0 /\
  mps_init Z_cring 3 2 2 2 true true (Some 3%Z) PNone (5%Z : Z_cring) true tick = Ok m0' /\
  exists m', trained m0' m' /\ forall g, exists out out', ti_forward Z_cring m0 (TTensor ti_x) g = (Ok out, Some 1) /\
    mps_forward Z_cring m' ti_x g = (Ok out', Some 1) /\ get out' [0; 1] = get out [0; 1].
Proof.
  intros fe.
  destruct (C38_constructor Z_cring 2 2 2 false fe (1%Z : Z_cring) true true (fun _ z => z) tick ltac:(lia)) as (m0 & E0 & Ht & _).
  destruct (C34_constructor Z_cring 3 2 2 2 true true (Some 3%Z) PNone (5%Z : Z_cring) true tick) as (m0' & E0' & _ & _); [lia|left; left; reflexivity|].
  exists m0, m0'. split; [exact E0|]. split; [exact E0'|].
  destruct (C116_ti Z_cring 3 2 2 2 false true fe (1%Z : Z_cring) (5%Z : Z_cring) true true true (fun _ z => z) PNone tick tick m0 m0 m0' E0 Ht E0' (or_introl eq_refl) ltac:(lia) ltac:(lia) ltac:(discriminate)) as (m' & Ht' & _ & H).
  exists m'. split; [exact Ht'|]. intros g.
  destruct (C38_ti_forward Z_cring 2 2 2 false fe (1%Z : Z_cring) true true (fun _ z => z) tick m0 m0 ti_x 1 3 g E0 Ht eq_refl ltac:(lia)) as (out & Eo & So & Go).
  specialize (H ti_x g (or_introl eq_refl)). rewrite Eo in H. destruct H as (out' & E' & Hs & G). exists out, out'. split; [exact Eo|]. split; [exact E'|].
  apply G. rewrite So. repeat (apply Forall2_cons; [lia|]). apply Forall2_nil.
Qed.
(** a biased ProbMPS and a biased ProbUnifMPS of bond dimension 2 on the batch of all four words of length 2 *)
Example C116_prob_met : forall uniform : bool, exists (m0' m' : mps R_num), mps_init R_num 2 1 2 2 true false (Some 2%Z) PNone (5%R : R_num) true (fun _ _ => 1%R) = Ok m0' /\ trained m0' m' /\
  exists T o Zn, snd (fwd R_num uniform (if uniform then pe_u else pe_mb) (TLong pe_all) false true) = Ok T /\ mps_forward R_num m' sy_onehot None = (Ok o, Some 4) /\
    forall b, b < 4 -> get T [b] = XFin (ln (abs2 (K := R_num) (get o [b; 0]) / Zn)).
Proof.
  intros uniform.
  destruct (C34_constructor R_num 2 1 2 2 true false (Some 2%Z) PNone (5%R : R_num) true (fun _ _ => 1%R)) as (m0' & E0' & _ & _); [lia|left; left; reflexivity|].
  set (m := if uniform then pe_u else pe_mb).
  assert (Hs : shapes_of R_num uniform m 2 2 2) by (unfold m; destruct uniform; cbn; repeat split; lia).
  assert (He : pm_emb R_num m = None) by (unfold m; destruct uniform; reflexivity).
  destruct (C116_prob R_num uniform m 2 2 2 false PNone (5%R : R_num) true (fun _ _ => 1%R) m0' Hs He ltac:(lia) E0' (or_introl eq_refl) ltac:(discriminate)) as (m' & score & Ht' & _ & H).
  exists m0', m'. split; [exact E0'|]. split; [exact Ht'|].
  assert (Hv : vectors_of R_num 4 2 2 (TLong pe_all) sy_onehot) by (split; [reflexivity|exact (proj2 C79_hyps_met)]).
  destruct (H (TLong pe_all) sy_onehot false true 4 None pe_wf Hv ltac:(discriminate)) as (o & Eo & So & X). cbv zeta in X.
  assert (A : forall b, b < 4 -> psi R_num uniform m 2 2 2 (TLong pe_all) b <> 0%R) by (unfold m; destruct uniform; [exact C10_hyps_met|exact C08_hyps_met]).
  assert (R : exists T, snd (fwd R_num uniform m (TLong pe_all) false true) = Ok T /\ forall b, b < 4 -> exists r, get T [b] = XFin r).
  { pose proof (C90_forward_exact R_num uniform m (TLong pe_all) false true 4 2 2 2 Hs He pe_wf ltac:(lia) ltac:(discriminate)) as Y. cbv zeta in Y.
    destruct (snd (fwd R_num uniform m (TLong pe_all) false true)) as [T|er].
    - exists T. split; [reflexivity|]. intros b Hb. destruct Y as (_ & _ & _ & Y). destruct (Y b Hb) as [_ Y']. rewrite (Y' (A b Hb)). eauto.
    - exfalso. destruct Y as [_ [Y|(b & Hb & Y)]].
      + pose proof (psi_Z_pos R_num uniform m pe_all 4 2 2 2 0 pe_wf ltac:(lia) (A 0 ltac:(lia))). lra.
      + exact (A b Hb (lost_zero R_num uniform m 2 2 2 _ _ _ b Y)). }
  destruct R as (T & ET & R). rewrite ET in X. destruct X as (HZ & ST & X). exists T, o. eexists. split; [exact ET|]. split; [exact Eo|].
  intros b Hb. destruct (X b Hb) as [X0 X1]. apply X1. intros E. destruct (R b Hb) as (r & Er). rewrite (X0 E) in Er. discriminate Er.
Qed.
