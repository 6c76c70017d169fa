(** * P_EmbSuper: C114 and C115 for probabilistic models with an embedding (discrete or on an interval). *)
From Coq Require Import Ring_theory Ring Reals Lra Classical_Prop.
From Verif Require Import Base Scalars Tensor Utils2 MpsBase Embeddings ProbMps Spec MatSpec ModelSpec EmbSpec LinAlg Utils2Proofs EinsumProofs MatseqProofs SlimProofs LogNorm ProbProofs EmbProofs P_Prob P_Emb P_Emb2 P_EmbExact P_ZeroExact Contractables Utils TorchMps TmSpec TmProofs TmFinal P_Mps P_Mps2 P_Mps3 P_Mps4 P_MpsCap P_Larger P_Super.
Open Scope nat_scope.

Section EmbSuper.
  Variable K : numfield.
  Add Ring KrEs : (rth K).
  (** a batch of sequences over the domain of the embedding e, and the vectors v that e gives for it: M points with weights wt
      and vectors phi stand for the domain (its values, or the 1000 points of the trapezoid rule) *)
  Inductive embedded_call (e : embedding K) (batch n d : nat) : tin K -> tensor K -> forall M : nat, (nat -> R) -> (nat -> nat -> K) -> Prop :=
  | EC_discrete f M mn ix phi : EmbProofs.built K e f (mkDom false (INR M) mn) -> embeds_discrete f M d phi -> wf_input (K := K) (TLong ix) batch n M ->
      embedded_call e batch n d (TLong ix) (f (TLong ix)) M (fun _ => 1%R) phi
  | EC_interval f a b (y : tensor R) phi : (a < b)%R -> EmbProofs.built K e f (mkDom true b (Some a)) -> embeds_interval f a b d phi -> shp y = [batch; n] ->
      (forall i, valid (shp y) i -> (a <= get y i <= b)%R) ->
      embedded_call e batch n d (TFloat (tmap (nofR K) y)) (f (TFloat (tmap (nofR K) y))) num_points_default (trap_weight num_points_default (grid a b num_points_default)) (fun q => phi (grid a b num_points_default q)).
  (** the normaliser (C70): over the domain if the Gram matrix has a visible off-diagonal entry, over the letters of the core if not *)
  Definition norm_as (n d M : nat) (wt : nat -> R) (phi : nat -> nat -> K) (on_points on_letters : list nat -> K) (Zn : R) : Prop :=
    (~ invisible K d (gram_matrix M wt phi) /\ Zn = lsum (K := R_ops) (words M n) (fun w => (weight_of wt w * abs2 (on_points w))%R)) \/
    (invisible K d (gram_matrix M wt phi) /\ exists lam, used_weights K d (component_weight K M wt phi) lam /\
       Zn = lsum (K := R_ops) (words d n) (fun w => (weight_of lam w * abs2 (on_letters w))%R)).
  Definition amp_points (uniform : bool) (m : pmps K) (d D : nat) (phi : nat -> nat -> K) (w : list nat) : K :=
    amplitude D (edge_at (pm_edge K m) 0) (edge_at (pm_edge K m) 1) (norm_site K d m uniform phi) w.
  Definition amp_letters (uniform : bool) (m : pmps K) (D : nat) (w : list nat) : K :=
    amplitude D (edge_at (pm_edge K m) 0) (edge_at (pm_edge K m) 1) (letter_site (pm_core K m) uniform (pm_bias K m)) w.
  Lemma normaliser_as uniform m n d D M wt phi Zn : normaliser K uniform m n d D M wt phi Zn <-> norm_as n d M wt phi (amp_points uniform m d D phi) (amp_letters uniform m D) Zn.
  Proof. split; intros H; exact H. Qed.
  Lemma norm_as_unique n d M wt phi p l p' l' Z1 Z2 : 
    (forall w, In w (words M n) -> p w = p' w) -> (forall w, In w (words d n) -> l w = l' w) ->
    norm_as n d M wt phi p l Z1 -> norm_as n d M wt phi p' l' Z2 -> Z1 = Z2.
  Proof.
    intros Hp Hl [[V1 ->]|[V1 (lam1 & U1 & ->)]] [[V2 ->]|[V2 (lam2 & U2 & ->)]]; try contradiction.
    - apply (lsum_ext R_cring). intros w Hw. rewrite (Hp w Hw). reflexivity.
    - assert (E : forall k, lam1 k = lam2 k).
      { destruct U1 as [[A1 L1]|[(k1 & Hk1 & A1) L1]], U2 as [[A2 L2]|[(k2 & Hk2 & A2) L2]]; intros k; rewrite L1, L2; try reflexivity; exfalso; [exact (A2 (A1 k2 Hk2))|exact (A1 (A2 k1 Hk1))]. }
      apply (lsum_ext R_cring). intros w Hw. rewrite (Hl w Hw).
      assert (W : weight_of lam1 w = weight_of lam2 w) by (clear Hw; unfold weight_of; induction w as [|k w IH]; cbn [fold_right]; [reflexivity|rewrite IH, E; reflexivity]). rewrite W. reflexivity.
  Qed.
  (** exact outcome of a call *)
  Lemma emb_call_exact (uniform : bool) (m : pmps K) e x v slim par batch n d D M wt phi :
    shapes_of K uniform m n d D -> pm_emb K m = Some e -> embedded_call e batch n d x v M wt phi -> 0 < n -> (slim = true -> pm_bias K m = None) ->
    exists Zn, normaliser K uniform m n d D M wt phi Zn /\
      match snd (fwd K uniform m x slim par) with
      | Ok T => (0 < Zn)%R /\ (forall b, b < batch -> ~ row_lost (pm_core K m) (pm_edge K m) (pm_bias K m) uniform n d D (TFloat v) slim par b) /\ rows_given K uniform m n d D (TFloat v) Zn batch T
      | Err er => er = AssertionError /\ (Zn = 0%R \/ exists b, b < batch /\ row_lost (pm_core K m) (pm_edge K m) (pm_bias K m) uniform n d D (TFloat v) slim par b)
      end.
  Proof.
    intros Hsh He Hc Hn Hsl. destruct Hc as [f M mn ix phi Hb Hf Hx|f a b y phi Hab Hb Hf Hs Hr].
    - destruct (C90_embedded_exact K uniform m e f M d phi mn ix slim par batch n D Hsh He Hb Hf Hx Hn Hsl) as (Zn & HZ & H). exists Zn. split; [exact HZ|exact H].
    - assert (HN : 1 < num_points_default) by (apply Nat.ltb_lt; reflexivity).
      destruct (raw_lambda_interval K f a b d phi num_points_default Hab HN Hf) as (raw & Er & Hrs & Hrg).
      destruct (Hf y Hr) as [Hfs _]. rewrite Hs in Hfs. cbn [app] in Hfs.
      set (wt := trap_weight num_points_default (grid a b num_points_default)) in *. set (pts := fun q => phi (grid a b num_points_default q)) in *.
      assert (Hw : forall q, q < num_points_default -> (0 <= wt q)%R) by (intros; apply trap_weight_nonneg; assumption).
      destruct (emb_exact_full K uniform m e f _ (TFloat (tmap (nofR K) y)) raw slim par batch n d D num_points_default wt pts Hsh He Hb Er Hrs Hrg Hw ltac:(exists []; exact Hs) Hfs Hn Hsl) as (Zn & HZ & H & Hex).
      exists Zn. split; [exact HZ|]. unfold P_EmbExact.outcome in H.
      assert (HZ0 : (0 <= Zn)%R).
      { destruct (shapes_get K uniform m n d D Hsh) as (Hd & HD & _). destruct HZ as [[_ ->]|[_ (lam & Hlam & ->)]].
        - apply Zw_nonneg. exact Hw.
        - rewrite <- emb_Z_delta. apply Zw_nonneg. apply (used_nonneg K d _ lam Hd Hlam). intros k _. apply component_weight_nonneg. exact Hw. }
      apply exact_match; [exact HZ0| |exact Hex]. intros T ET. rewrite ET in H. destruct H as (H0 & HT & H). apply is_log_rows; assumption.
  Qed.

  (** ** C114 *)
  Lemma pad_norm_site uniform D D' m d phi t q i j : norm_site K d (pad_prob K uniform D D' m) uniform phi t q i j = inside K D i j (norm_site K d m uniform phi t q i j).
  Proof.
    unfold norm_site. rewrite (bsum_ext d _ (fun k => smul (phi q k) (inside K D i j (letter_site (pm_core K m) uniform (pm_bias K m) t k i j)))) by (intros; rewrite (pad_letter K); reflexivity).
    unfold inside. destruct (_ && _); [reflexivity|]. apply (bsum_zero K). intros; ring.
  Qed.
  Theorem C114_prob_embedded (uniform : bool) (m : pmps K) e (n d D D' : nat) : shapes_of K uniform m n d D -> D <= D' -> pm_emb K m = Some e ->
    exists m', shapes_of K uniform m' n d D' /\ pm_emb K m' = Some e /\ (pm_bias K m' = None <-> pm_bias K m = None) /\
      forall x v slim par batch M wt phi, embedded_call e batch n d x v M wt phi -> 0 < n -> (slim = true -> pm_bias K m = None) ->
        same_result (snd (fwd K uniform m x slim par)) (snd (fwd K uniform m' x slim par)).
  Proof.
    intros Hs HDD He. exists (pad_prob K uniform D D' m). pose proof (pad_prob_shapes K uniform D D' m n d Hs HDD) as Hs'.
    assert (Hbias : pm_bias K (pad_prob K uniform D D' m) = None <-> pm_bias K m = None) by (cbn [pm_bias pad_prob]; destruct (pm_bias K m); split; (reflexivity || discriminate)).
    split; [exact Hs'|]. split; [exact He|]. split; [exact Hbias|]. intros x v slim par batch M wt phi Hc Hn Hsl.
    destruct (emb_call_exact uniform m e x v slim par batch n d D M wt phi Hs He Hc Hn Hsl) as (Z1 & N1 & A).
    destruct (emb_call_exact uniform (pad_prob K uniform D D' m) e x v slim par batch n d D' M wt phi Hs' He Hc Hn ltac:(intros E; apply Hbias, Hsl, E)) as (Z2 & N2 & B).
    assert (EZ : Z2 = Z1).
    { apply normaliser_as in N1. apply normaliser_as in N2. refine (norm_as_unique n d M wt phi _ _ _ _ Z2 Z1 _ _ N2 N1); intros w _.
      - apply (padded_amplitude K); [exact HDD|]. intros. apply pad_norm_site.
      - apply (padded_amplitude K); [exact HDD|]. intros. apply (pad_letter K). }
    subst Z2.
    destruct (snd (fwd K uniform m x slim par)) as [T|er]; destruct (snd (fwd K uniform (pad_prob K uniform D D' m) x slim par)) as [T'|er'].
    - destruct A as (HZ & _ & ST & GT). destruct B as (_ & _ & ST' & GT'). exists T'. split; [reflexivity|]. split; [congruence|].
      intros i Hi. rewrite ST in Hi. inversion Hi as [|b ? ? ? Hb H1]; subst. inversion H1; subst.
      specialize (GT b Hb). specialize (GT' b Hb). cbv zeta in GT, GT'. rewrite (pad_amp K) in GT' by exact HDD.
      destruct GT as [G1 G2], GT' as [G1' G2'].
      destruct (classic (row_amp (pm_core K m) (pm_edge K m) (pm_bias K m) uniform n d D (TFloat v) b = s0)) as [Ez|Ez]; [rewrite G1, G1' by exact Ez|rewrite G2, G2' by exact Ez]; reflexivity.
    - destruct A as (HZ & HL & _). destruct B as (_ & [E|(b & Hb & HL')]); [rewrite E in HZ; exfalso; lra|].
      exfalso. apply (HL b Hb). apply (pad_lost K) in HL'; assumption.
    - destruct B as (HZ & HL & _). destruct A as (_ & [E|(b & Hb & HL')]); [rewrite E in HZ; exfalso; lra|].
      exfalso. apply (HL b Hb). apply (pad_lost K); assumption.
    - destruct A as [-> _], B as [-> _]. reflexivity.
  Qed.

  (** ** C115 *)
  Section Super.
    Variables (D1 D2 : nat) (a b : K).
    Hypotheses (H1 : 0 < D1) (H2 : 0 < D2).
    Definition with_embedding (m : pmps K) (e : embedding K) : pmps K := {| pm_core := pm_core K m; pm_edge := pm_edge K m; pm_bias := pm_bias K m; pm_emb := Some e |}.
    Lemma super_norm_site uniform m1 m2 d phi t q i j : norm_site K d (super_prob K D1 D2 a b uniform m1 m2) uniform phi t q i j
      = dsum K D1 (norm_site K d m1 uniform phi t q) (norm_site K d m2 uniform phi t q) i j.
    Proof.
      unfold norm_site. rewrite (bsum_ext d _ (fun k => smul (phi q k) (dsum K D1 (letter_site (pm_core K m1) uniform (pm_bias K m1) t k) (letter_site (pm_core K m2) uniform (pm_bias K m2) t k) i j))) by (intros; rewrite (super_letter K); reflexivity).
      rewrite (dsum_lin K). reflexivity.
    Qed.
    Theorem C115_prob_embedded (uniform : bool) (m1 m2 : pmps K) e (n d : nat) : shapes_of K uniform m1 n d D1 -> shapes_of K uniform m2 n d D2 -> 0 < n ->
      exists m', shapes_of K uniform m' n d (D1 + D2) /\ pm_emb K m' = Some e /\ (pm_bias K m' = None <-> pm_bias K m1 = None /\ pm_bias K m2 = None) /\
        forall x v slim par batch M wt phi, embedded_call e batch n d x v M wt phi -> (slim = true -> pm_bias K m1 = None /\ pm_bias K m2 = None) ->
          let amp := fun r => sadd (smul a (psi K uniform m1 n d D1 (TFloat v) r)) (smul b (psi K uniform m2 n d D2 (TFloat v) r)) in
          exists Zn, norm_as n d M wt phi (fun w => sadd (smul a (amp_points uniform m1 d D1 phi w)) (smul b (amp_points uniform m2 d D2 phi w)))
                                          (fun w => sadd (smul a (amp_letters uniform m1 D1 w)) (smul b (amp_letters uniform m2 D2 w))) Zn /\
          match snd (fwd K uniform m' x slim par) with
          | Ok T => (0 < Zn)%R /\ shp T = [batch] /\ forall r, r < batch ->
              (amp r = s0 -> get T [r] = XNInf) /\ (amp r <> s0 -> get T [r] = XFin (ln (abs2 (amp r) / Zn)))
          | Err er => er = AssertionError /\ (Zn = 0%R \/ exists r, r < batch /\ amp r = s0)
          end.
    Proof.
      intros Hs1 Hs2 Hn. set (s := super_prob K D1 D2 a b uniform m1 m2). exists (with_embedding s e).
      assert (Hs' : shapes_of K uniform (with_embedding s e) n d (D1 + D2)) by (pose proof (super_shapes K D1 D2 a b H1 H2 uniform m1 m2 n d Hs1 Hs2) as Q; destruct uniform; exact Q).
      assert (Hb : pm_bias K (with_embedding s e) = None <-> pm_bias K m1 = None /\ pm_bias K m2 = None).
      { cbn [pm_bias super_prob s with_embedding]. destruct (pm_bias K m1), (pm_bias K m2); split; try discriminate; try (intros [? ?]; discriminate); auto. }
      split; [exact Hs'|]. split; [reflexivity|]. split; [exact Hb|]. intros x v slim par batch M wt phi Hc Hsl amp.
      destruct (emb_call_exact uniform (with_embedding s e) e x v slim par batch n d (D1 + D2) M wt phi Hs' eq_refl Hc Hn ltac:(intros E; apply Hb, Hsl, E)) as (Zn & N & X).
      assert (Hlen : forall k w, In w (words k n) -> w <> []) by (intros k w Hw E; apply words_length in Hw; rewrite E in Hw; cbn in Hw; lia).
      assert (EP : forall w, In w (words M n) -> amp_points uniform (with_embedding s e) d (D1 + D2) phi w = sadd (smul a (amp_points uniform m1 d D1 phi w)) (smul b (amp_points uniform m2 d D2 phi w))).
      { intros w Hw. apply (super_sites K D1 D2 a b H1 H2); [exact (Hlen M w Hw)|]. intros. apply super_norm_site. }
      assert (EL : forall w, In w (words d n) -> amp_letters uniform (with_embedding s e) (D1 + D2) w = sadd (smul a (amp_letters uniform m1 D1 w)) (smul b (amp_letters uniform m2 D2 w))).
      { intros w Hw. apply (super_sites K D1 D2 a b H1 H2); [exact (Hlen d w Hw)|]. intros. apply (super_letter K). }
      exists Zn. split.
      { apply normaliser_as in N. destruct N as [[V ->]|[V (lam & U & ->)]]; [left|right]; (split; [exact V|]); [|exists lam; split; [exact U|]];
          apply (lsum_ext R_cring); intros w Hw; [exact (f_equal (fun z => (weight_of wt w * abs2 z)%R) (EP w Hw))|exact (f_equal (fun z => (weight_of lam w * abs2 z)%R) (EL w Hw))]. }
      assert (EA : forall r, psi K uniform (with_embedding s e) n d (D1 + D2) (TFloat v) r = amp r) by (intros r; exact (super_amp K D1 D2 a b H1 H2 uniform m1 m2 n d (TFloat v) r Hn)).
      destruct (snd (fwd K uniform (with_embedding s e) x slim par)) as [T|er].
      - destruct X as (HZ & _ & ST & GT). split; [exact HZ|]. split; [exact ST|]. intros r Hr. specialize (GT r Hr). cbv zeta in GT.
        fold (psi K uniform (with_embedding s e) n d (D1 + D2) (TFloat v) r) in GT. rewrite EA in GT. exact GT.
      - destruct X as (Er & X). split; [exact Er|]. destruct X as [X|(r & Hr & X)]; [left; exact X|right]. exists r. split; [exact Hr|]. rewrite <- EA. apply (lost_zero K) in X. exact X.
    Qed.
  End Super.
End EmbSuper.

(** ** Hypotheses met: one site, inputs 0, 1, 2 with the vectors emb3, and points of [0, 1] with the vectors (1, 1) *)
Definition ees_discrete : embedding R_num := trainable_embedding R_num emb3_fun (mkDom false (INR 3) None).
Definition ees_interval : embedding R_num := trainable_embedding R_num (flat 2 1%R) (mkDom true 1%R (Some 0%R)).
Definition ees_points : tensor R := mkT [1; 1] (fun _ => (/ 2)%R).
Example C114_embedded_met :
  shapes_of R_num false (one_model 2 None (Some ees_discrete)) 1 2 1 /\ shapes_of R_num false (one_model 2 None (Some ees_interval)) 1 2 1 /\
  (exists v M wt phi, embedded_call R_num ees_discrete 1 1 2 (TLong one_row) v M wt phi) /\
  (exists v M wt phi, embedded_call R_num ees_interval 1 1 2 (TFloat (X := R_num) ees_points) v M wt phi).
Proof.
  split; [apply one_shapes; [lia|left; reflexivity]|]. split; [apply one_shapes; [lia|left; reflexivity]|]. split.
  - do 4 eexists. refine (EC_discrete R_num ees_discrete 1 1 2 emb3_fun 3 None one_row emb3 _ _ _).
    + right. split; [reflexivity|]. split; reflexivity.
    + exact emb3_embeds.
    + (split; [reflexivity|]; intros b t _ _; cbn; lia).
  - do 4 eexists. refine (EC_interval R_num ees_interval 1 1 2 (flat 2 1%R) 0%R 1%R ees_points (fun _ _ => 1%R) _ _ _ eq_refl _).
    + lra.
    + right. split; [reflexivity|]. split; reflexivity.
    + apply flat_embeds_interval.
    + intros. cbn. lra.
Qed.

Print Assumptions C114_prob_embedded.
Print Assumptions C115_prob_embedded.
