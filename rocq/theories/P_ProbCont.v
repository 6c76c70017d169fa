(** * P_ProbCont: C119, the log probabilities of ProbMPS and ProbUnifMPS depend continuously on the parameters and the inputs
    (torchmps/prob_mps.py forward, torchmps/mps_base.py contract_matseq, slim_eval_fun, get_log_norm). *)
From Coq Require Import Ring_theory Ring Reals Lra Classical_Prop Classical_Pred_Type.
From Verif Require Import Base Scalars Tensor Utils2 MpsBase Embeddings ProbMps Spec MatSpec ModelSpec EmbSpec LinAlg Utils2Proofs EinsumProofs MatseqProofs SlimProofs LogNorm ProbProofs EmbProofs P_Prob P_Emb P_Emb2 P_EmbExact P_ZeroExact P_EmbSuper.
Open Scope nat_scope.

Section Cont.
  Variable K : numfield.
  Add Ring KrPc : (rth K).
  (** ** What "close" means *)
  Definition within (delta : R) (t t' : tensor K) : Prop :=
    shp t' = shp t /\ forall i, valid (shp t) i -> (nabs K (ssub (get t' i) (get t i)) < delta)%R.
  Definition model_within (delta : R) (m m' : pmps K) : Prop :=
    within delta (pm_core K m) (pm_core K m') /\ within delta (pm_edge K m) (pm_edge K m') /\
    match pm_bias K m, pm_bias K m' with None, None => True | Some b, Some b' => within delta b b' | _, _ => False end /\ pm_emb K m' = pm_emb K m.
  Definition input_within (delta : R) (x x' : tin K) : Prop :=
    match x, x' with TLong ix, TLong ix' => ix' = ix | TFloat v, TFloat v' => within delta v v' | _, _ => False end.
  (** results: finite entries move by less than eps; where the result is -inf, the other is -inf or below [bound] *)
  Definition entry_close (eps bound : R) (a a' : xreal) : Prop :=
    match a, a' with
    | XFin u, XFin u' => (Rabs (u' - u) < eps)%R
    | XNInf, XNInf => True
    | XNInf, XFin u' => (u' < bound)%R
    | _, _ => False
    end.
  Definition logs_close (eps bound : R) (T T' : tensor xreal) : Prop := shp T' = shp T /\ forall i, valid (shp T) i -> entry_close eps bound (get T i) (get T' i).

  (** ** |.|^2 *)
  Definition dist2 (x y : K) : R := abs2 (ssub x y).
  Lemma par2 (x y : K) : (abs2 (sadd x y) + abs2 (ssub x y) = 2 * abs2 x + 2 * abs2 y)%R.
  Proof.
    apply (nofR_inj K). replace (2 * abs2 x + 2 * abs2 y)%R with (abs2 x + abs2 x + (abs2 y + abs2 y))%R by ring.
    rewrite !nof_add, <- !abs2_nofR. replace (ssub x y) with (sadd x (smul (nofR K (-1)) y)).
    2:{ replace (nofR K (-1)) with (ropp (s1 : K)); [ring|]. assert (E : sadd (nofR K (-1)) (s1 : K) = s0) by (rewrite <- nof_1, <- nof_add; replace (-1 + 1)%R with 0%R by ring; apply nof_0).
        replace (nofR K (-1)) with (ssub (sadd (nofR K (-1)) (s1 : K)) s1) by ring. rewrite E. ring. }
    rewrite !nconj_add, !nconj_mul, nconj_of.
    assert (E : smul (nofR K (-1)) (nofR K (-1)) = s1) by (rewrite <- nof_mul; replace (-1 * -1)%R with 1%R by ring; apply nof_1).
    assert (F : nofR K (-1) = ropp (s1 : K)).
    { assert (E' : sadd (nofR K (-1)) (s1 : K) = s0) by (rewrite <- nof_1, <- nof_add; replace (-1 + 1)%R with 0%R by ring; apply nof_0).
      replace (nofR K (-1)) with (ssub (sadd (nofR K (-1)) (s1 : K)) s1) by ring. rewrite E'. ring. }
    rewrite F. ring.
  Qed.
  Lemma abs2_add_le (x y : K) : (abs2 (sadd x y) <= 2 * abs2 x + 2 * abs2 y)%R.
  Proof. pose proof (par2 x y). pose proof (abs2_nonneg K (ssub x y)). lra. Qed.
  (** |l + d|^2 = |l|^2 + |d|^2 + c, with c at most eta |l|^2 + |d|^2 / eta *)
  Lemma abs2_close (l d : K) eta : (0 < eta)%R -> (Rabs (abs2 (sadd l d) - abs2 l) <= eta * abs2 l + (1 + / eta) * abs2 d)%R.
  Proof.
    intros He. set (c := (abs2 (sadd l d) - abs2 l - abs2 d)%R).
    assert (Hc : nofR K c = sadd (smul l (nconj K d)) (smul d (nconj K l))).
    { assert (E : sadd (nofR K c) (sadd (nofR K (abs2 l)) (nofR K (abs2 d))) = nofR K (abs2 (sadd l d))) by (rewrite <- !nof_add; f_equal; unfold c; ring).
      rewrite <- !abs2_nofR, nconj_add in E.
      replace (nofR K c) with (ssub (sadd (nofR K c) (sadd (smul l (nconj K l)) (smul d (nconj K d)))) (sadd (smul l (nconj K l)) (smul d (nconj K d)))) by ring.
      rewrite E. ring. }
    assert (G : forall s : R, abs2 (sadd (smul (nofR K eta) l) (smul (nofR K s) d)) = (eta * eta * abs2 l + eta * s * c + s * s * abs2 d)%R).
    { intros s. apply (nofR_inj K). rewrite !nof_add, !nof_mul, Hc, <- !abs2_nofR, nconj_add, !nconj_mul, !nconj_of. ring. }
    pose proof (abs2_nonneg K (sadd (smul (nofR K eta) l) (smul (nofR K 1) d))) as P1. rewrite G in P1.
    pose proof (abs2_nonneg K (sadd (smul (nofR K eta) l) (smul (nofR K (-1)) d))) as P2. rewrite G in P2.
    assert (Hi : (eta * / eta = 1)%R) by (apply Rinv_r; lra). pose proof (Rinv_0_lt_compat eta He).
    assert (B : (Rabs c <= eta * abs2 l + / eta * abs2 d)%R).
    { apply Rabs_le. split; apply (Rmult_le_reg_l eta); try exact He; replace (eta * (eta * abs2 l + / eta * abs2 d))%R with (eta * eta * abs2 l + (eta * / eta) * abs2 d)%R by ring || idtac.
      - replace (eta * - (eta * abs2 l + / eta * abs2 d))%R with (- (eta * eta * abs2 l + (eta * / eta) * abs2 d))%R by ring. rewrite Hi. lra.
      - rewrite Hi. lra. }
    replace (abs2 (sadd l d) - abs2 l)%R with (c + abs2 d)%R by (unfold c; ring).
    pose proof (Rabs_triang c (abs2 d)). rewrite (Rabs_pos_eq (abs2 d)) in H0 by apply abs2_nonneg. lra.
  Qed.

  (** ** Limits along a filter of points *)
  Section Filter.
    Variable T : Type.
    Variable near : (T -> Prop) -> Prop.
    Hypothesis near_all : forall P : T -> Prop, (forall s, P s) -> near P.
    Hypothesis near_and : forall P Q : T -> Prop, near P -> near Q -> near (fun s => P s /\ Q s).
    Hypothesis near_imp : forall P Q : T -> Prop, (forall s, P s -> Q s) -> near P -> near Q.
    Definition tends (f : T -> K) (l : K) : Prop := forall eps, (0 < eps)%R -> near (fun s => dist2 (f s) l < eps)%R.
    Definition rtends (f : T -> R) (l : R) : Prop := forall eps, (0 < eps)%R -> near (fun s => Rabs (f s - l) < eps)%R.
    Lemma tends_const c : tends (fun _ => c) c.
    Proof. intros eps He. apply near_all. intros _. unfold dist2. replace (ssub c c) with (s0 : K) by ring. rewrite abs2_s0. exact He. Qed.
    Lemma tends_add f g l k : tends f l -> tends g k -> tends (fun s => sadd (f s) (g s)) (sadd l k).
    Proof.
      intros Hf Hg eps He. refine (near_imp _ _ _ (near_and _ _ (Hf (eps / 4)%R ltac:(lra)) (Hg (eps / 4)%R ltac:(lra)))). intros s [A B]. unfold dist2 in *.
      replace (ssub (sadd (f s) (g s)) (sadd l k)) with (sadd (ssub (f s) l) (ssub (g s) k)) by ring.
      pose proof (abs2_add_le (ssub (f s) l) (ssub (g s) k)). lra.
    Qed.
    Lemma tends_mul f g l k : tends f l -> tends g k -> tends (fun s => smul (f s) (g s)) (smul l k).
    Proof.
      intros Hf Hg eps He.
      set (B := (abs2 l + abs2 k + 1)%R). assert (HB : (1 <= B)%R) by (unfold B; pose proof (abs2_nonneg K l); pose proof (abs2_nonneg K k); lra).
      set (d := Rmin 1 (eps / (16 * B))). 
      assert (Hd : (0 < d)%R) by (unfold d; apply Rmin_glb_lt; [lra|]; apply Rdiv_lt_0_compat; lra).
      assert (Hd1 : (d <= 1)%R) by apply Rmin_l.
      assert (Hd2 : (d * (16 * B) <= eps)%R).
      { assert (Q : (d <= eps / (16 * B))%R) by apply Rmin_r. apply (Rmult_le_compat_r (16 * B)) in Q; [|lra]. replace (eps / (16 * B) * (16 * B))%R with eps in Q by (field; lra). exact Q. }
      refine (near_imp _ _ _ (near_and _ _ (Hf d Hd) (Hg d Hd))). intros s [P Q]. unfold dist2 in *.
      replace (ssub (smul (f s) (g s)) (smul l k)) with (sadd (smul (ssub (f s) l) (g s)) (smul l (ssub (g s) k))) by ring.
      pose proof (abs2_add_le (smul (ssub (f s) l) (g s)) (smul l (ssub (g s) k))) as H. rewrite !abs2_mul in H.
      assert (G : (abs2 (g s) <= 2 * B)%R).
      { replace (g s) with (sadd k (ssub (g s) k)) by ring. pose proof (abs2_add_le k (ssub (g s) k)). pose proof (abs2_nonneg K l). unfold B. lra. }
      pose proof (abs2_nonneg K (ssub (f s) l)). pose proof (abs2_nonneg K (ssub (g s) k)). pose proof (abs2_nonneg K l). pose proof (abs2_nonneg K (g s)).
      assert (L : (abs2 l <= B)%R) by (unfold B; pose proof (abs2_nonneg K k); lra).
      assert (M1 : (abs2 (ssub (f s) l) * abs2 (g s) <= d * (2 * B))%R) by (apply Rmult_le_compat; lra).
      assert (M2 : (abs2 l * abs2 (ssub (g s) k) <= B * d)%R) by (apply Rmult_le_compat; lra).
      nra.
    Qed.
    Lemma tends_bsum n (f : T -> nat -> K) l : (forall k, k < n -> tends (fun s => f s k) (l k)) -> tends (fun s => bsum n (f s)) (bsum n l).
    Proof.
      induction n as [|n IH]; intros H; cbn [bsum]; [apply tends_const|]. apply tends_add; [apply IH; intros; apply H; lia|apply H; lia].
    Qed.
    Lemma tends_abs2 f l : tends f l -> rtends (fun s => abs2 (f s)) (abs2 l).
    Proof.
      intros Hf eps He. pose proof (abs2_nonneg K l) as Hl.
      set (eta := (eps / (4 * (abs2 l + 1)))%R). assert (Heta : (0 < eta)%R) by (unfold eta; apply Rdiv_lt_0_compat; lra).
      pose proof (Rinv_0_lt_compat eta Heta) as Hi.
      assert (E1 : (eta * abs2 l <= eps / 4)%R).
      { assert (Q : (eta * (4 * (abs2 l + 1)) = eps)%R) by (unfold eta; field; lra). nra. }
      set (e2 := (eps / (4 * (1 + / eta)))%R). assert (He2 : (0 < e2)%R) by (unfold e2; apply Rdiv_lt_0_compat; lra).
      refine (near_imp _ _ _ (Hf e2 He2)). intros s Hs. unfold dist2 in Hs.
      pose proof (abs2_close l (ssub (f s) l) eta Heta) as H. replace (sadd l (ssub (f s) l)) with (f s) in H by ring.
      assert (E2 : ((1 + / eta) * abs2 (ssub (f s) l) < eps / 4)%R).
      { assert (Q : ((1 + / eta) * e2 = eps / 4)%R) by (unfold e2; field; split; lra). rewrite <- Q. apply Rmult_lt_compat_l; lra. }
      lra.
    Qed.
    Lemma tends_nonzero f l : tends f l -> l <> s0 -> near (fun s => f s <> s0).
    Proof.
      intros Hf Hl. assert (Hp : (0 < abs2 l)%R) by (destruct (abs2_nonneg K l) as [H|H]; [exact H|]; exfalso; apply Hl, (abs2_zero K); symmetry; exact H).
      refine (near_imp _ _ _ (tends_abs2 f l Hf (abs2 l) Hp)). intros s H E. rewrite E, abs2_s0 in H. rewrite Rminus_0_l, Rabs_Ropp, Rabs_pos_eq in H by lra. lra.
    Qed.
    Lemma rtends_const c : rtends (fun _ => c) c.
    Proof. intros eps He. apply near_all. intros _. rewrite Rminus_eq_0, Rabs_R0. exact He. Qed.
    Lemma rtends_add f g l k : rtends f l -> rtends g k -> rtends (fun s => f s + g s)%R (l + k)%R.
    Proof.
      intros Hf Hg eps He. refine (near_imp _ _ _ (near_and _ _ (Hf (eps / 2)%R ltac:(lra)) (Hg (eps / 2)%R ltac:(lra)))). intros s [A B].
      replace (f s + g s - (l + k))%R with ((f s - l) + (g s - k))%R by ring. pose proof (Rabs_triang (f s - l) (g s - k)). lra.
    Qed.
    Lemma rtends_scale c f l : rtends f l -> rtends (fun s => c * f s)%R (c * l)%R.
    Proof.
      intros Hf eps He. assert (Hc : (0 < Rabs c + 1)%R) by (pose proof (Rabs_pos c); lra).
      assert (He' : (0 < eps / (Rabs c + 1))%R) by (apply Rdiv_lt_0_compat; lra).
      refine (near_imp _ _ _ (Hf _ He')). intros s A.
      replace (c * f s - c * l)%R with (c * (f s - l))%R by ring. rewrite Rabs_mult.
      apply (Rmult_lt_compat_l (Rabs c + 1)) in A; [|exact Hc]. replace ((Rabs c + 1) * (eps / (Rabs c + 1)))%R with eps in A by (field; lra).
      pose proof (Rabs_pos (f s - l)). nra.
    Qed.
    Lemma rtends_lsum {X} (l : list X) (f : T -> X -> R) g : (forall x, In x l -> rtends (fun s => f s x) (g x)) -> rtends (fun s => lsum (K := R_ops) l (f s)) (lsum (K := R_ops) l g).
    Proof.
      induction l as [|x l IH]; intros H; cbn [lsum fold_right].
      - exact (rtends_const 0%R).
      - apply (rtends_add (fun s => f s x) (fun s => lsum (K := R_ops) l (f s)) (g x) (lsum (K := R_ops) l g)); [apply H; left; reflexivity|apply IH; intros; apply H; right; assumption].
    Qed.
    (** finitely many conditions *)
    Lemma near_upto n (P : nat -> T -> Prop) : (forall k, k < n -> near (P k)) -> near (fun s => forall k, k < n -> P k s).
    Proof.
      induction n as [|n IH]; intros H; [apply near_all; intros s k Hk; lia|].
      refine (near_imp _ _ _ (near_and _ _ (IH ltac:(intros; apply H; lia)) (H n ltac:(lia)))). intros s [A B] k Hk.
      destruct (Nat.eq_dec k n) as [->|]; [exact B|apply A; lia].
    Qed.
    (** matrix products *)
    Lemma tends_chain {X} D (site : T -> nat -> X -> nat -> nat -> K) (site0 : nat -> X -> nat -> nat -> K) xs : forall t0,
      (forall t q i j, t0 <= t < t0 + List.length xs -> In q xs -> i < D -> j < D -> tends (fun s => site s t q i j) (site0 t q i j)) ->
      forall i j, i < D -> j < D -> tends (fun s => chain (sites D (site s) t0 xs) i j) (chain (sites D site0 t0 xs) i j).
    Proof.
      induction xs as [|x xs IH]; intros t0 H i j Hi Hj; cbn [sites chain]; [apply tends_const|].
      unfold mmul. apply tends_bsum. intros k Hk. apply tends_mul.
      - apply H; try assumption; [cbn [List.length]; lia|left; reflexivity].
      - apply (IH (Datatypes.S t0)); try assumption. intros t q i' j' Ht Hq. apply H; [cbn [List.length]; lia|right; exact Hq].
    Qed.
    Lemma tends_amp {X} D (v w : T -> nat -> K) v0 w0 (site : T -> nat -> X -> nat -> nat -> K) site0 xs :
      (forall i, i < D -> tends (fun s => v s i) (v0 i)) -> (forall i, i < D -> tends (fun s => w s i) (w0 i)) ->
      (forall t q i j, t < List.length xs -> In q xs -> i < D -> j < D -> tends (fun s => site s t q i j) (site0 t q i j)) ->
      tends (fun s => amplitude D (v s) (w s) (site s) xs) (amplitude D v0 w0 site0 xs).
    Proof.
      intros Hv Hw Hs. unfold amplitude, sandwich. apply tends_bsum. intros i Hi. apply tends_bsum. intros j Hj.
      apply tends_mul; [apply Hv; exact Hi|]. apply tends_mul; [|apply Hw; exact Hj].
      apply (tends_chain D site site0 xs 0); try assumption. intros t q i' j' Ht. apply Hs. lia.
    Qed.
  End Filter.

  (** ** The models and inputs around (m, x) *)
  Section At.
    Variables (uniform : bool) (m : pmps K) (n d D batch : nat) (x : tin K).
    Hypotheses (Hsh : shapes_of K uniform m n d D) (Hx : wf_input (K := K) x batch n d) (Hn : 0 < n).
    Definition pt : Type := (pmps K * tin K)%type.
    Definition near (P : pt -> Prop) : Prop := exists delta, (0 < delta)%R /\ forall m' x', model_within delta m m' -> input_within delta x x' -> P (m', x').
    Lemma within_mono t t' d1 d2 : (d1 <= d2)%R -> within d1 t t' -> within d2 t t'.
    Proof. intros H [A B]. split; [exact A|]. intros i Hi. specialize (B i Hi). lra. Qed.
    Lemma model_within_mono m' d1 d2 : (d1 <= d2)%R -> model_within d1 m m' -> model_within d2 m m'.
    Proof.
      intros H (A & B & C & E). split; [eapply within_mono; eauto|]. split; [eapply within_mono; eauto|]. split; [|exact E].
      destruct (pm_bias K m), (pm_bias K m'); try exact C. eapply within_mono; eauto.
    Qed.
    Lemma input_within_mono x' d1 d2 : (d1 <= d2)%R -> input_within d1 x x' -> input_within d2 x x'.
    Proof. clear Hsh Hx Hn. intros H A. destruct x, x'; try exact A. cbn in *. eapply within_mono; eauto. Qed.
    Lemma near_all (P : pt -> Prop) : (forall s, P s) -> near P.
    Proof. intros H. exists 1%R. split; [lra|]. intros; apply H. Qed.
    Lemma near_imp (P Q : pt -> Prop) : (forall s, P s -> Q s) -> near P -> near Q.
    Proof. intros H (e & He & A). exists e. split; [exact He|]. intros; apply H, A; assumption. Qed.
    Lemma near_and (P Q : pt -> Prop) : near P -> near Q -> near (fun s => P s /\ Q s).
    Proof.
      intros (e1 & H1 & A) (e2 & H2 & B). exists (Rmin e1 e2). split; [apply Rmin_glb_lt; assumption|]. intros m' x' M X.
      split; [apply A|apply B]; (eapply model_within_mono; [|exact M]) || (eapply input_within_mono; [|exact X]); (apply Rmin_l || apply Rmin_r).
    Qed.
    Notation ntends := (tends pt near).
    Notation nrtends := (rtends pt near).
    Lemma sq_small (z : K) e eps : (nabs K z < e)%R -> (e <= 1)%R -> (e <= eps)%R -> (abs2 z < eps)%R.
    Proof. intros A B C. pose proof (nabs_pos K z). unfold abs2. nra. Qed.
    Lemma near_base (f : pt -> K) (l : K) : (forall e m' x', (0 < e)%R -> model_within e m m' -> input_within e x x' -> (nabs K (ssub (f (m', x')) l) < e)%R) -> ntends f l.
    Proof.
      intros H eps He. exists (Rmin 1 eps). assert (P : (0 < Rmin 1 eps)%R) by (apply Rmin_glb_lt; lra). split; [exact P|]. intros m' x' M X.
      apply (sq_small _ (Rmin 1 eps)); [apply H; assumption|apply Rmin_l|apply Rmin_r].
    Qed.
    Lemma core_tends t k i j : t < n -> k < d -> i < D -> j < D -> ntends (fun s => entry (pm_core K (fst s)) uniform t k i j) (entry (pm_core K m) uniform t k i j).
    Proof.
      intros Ht Hk Hi Hj. destruct (shapes_get K uniform m n d D Hsh) as (_ & _ & Sc & _). apply near_base. intros e m' x' He (M & _) _. cbn [fst]. unfold entry.
      destruct M as [_ M]. rewrite Sc in M. destruct uniform; apply M; repeat (apply Forall2_cons; [assumption|]); apply Forall2_nil.
    Qed.
    Lemma edge_tends k i : k < 2 -> i < D -> ntends (fun s => edge_at (pm_edge K (fst s)) k i) (edge_at (pm_edge K m) k i).
    Proof.
      intros Hk Hi. destruct (shapes_get K uniform m n d D Hsh) as (_ & _ & _ & Se & _). apply near_base. intros e m' x' He (_ & M & _) _. cbn [fst]. unfold edge_at.
      destruct M as [_ M]. rewrite Se in M. apply M; repeat (apply Forall2_cons; [assumption|]); apply Forall2_nil.
    Qed.
    Lemma nabs_zero : nabs K s0 = 0%R.
    Proof. rewrite <- (nof_0 K), nabs_of. apply Rabs_R0. Qed.
    Lemma bias_tends i j : i < D -> j < D -> ntends (fun s => bias_at (pm_bias K (fst s)) i j) (bias_at (pm_bias K m) i j).
    Proof.
      intros Hi Hj. destruct (shapes_get K uniform m n d D Hsh) as (_ & _ & _ & _ & Sb). apply near_base. intros e m' x' He (_ & _ & M & _) _. cbn [fst]. unfold bias_at.
      destruct (pm_bias K m) as [b|], (pm_bias K m') as [b'|]; try contradiction.
      - destruct M as [_ M]. rewrite Sb in M. apply M; repeat (apply Forall2_cons; [assumption|]); apply Forall2_nil.
      - replace (ssub s0 s0) with (s0 : K) by ring. rewrite nabs_zero. exact He.
    Qed.
    Notation tadd := (tends_add pt near near_and near_imp).
    Notation tmul := (tends_mul pt near near_and near_imp).
    Notation tsum := (tends_bsum pt near near_all near_and near_imp).
    Lemma letter_tends t k i j : t < n -> k < d -> i < D -> j < D -> ntends (fun s => letter_site (pm_core K (fst s)) uniform (pm_bias K (fst s)) t k i j) (letter_site (pm_core K m) uniform (pm_bias K m) t k i j).
    Proof. intros. unfold letter_site. apply tadd; [apply core_tends|apply bias_tends]; assumption. Qed.
    Lemma word_tends w : List.length w = n -> (forall k, In k w -> k < d) ->
      ntends (fun s => amp_letters K uniform (fst s) D w) (amp_letters K uniform m D w).
    Proof.
      intros Hl Hw. unfold amp_letters. apply (tends_amp pt near near_all near_and near_imp D (fun s => edge_at (pm_edge K (fst s)) 0) (fun s => edge_at (pm_edge K (fst s)) 1) _ _ (fun s => letter_site (pm_core K (fst s)) uniform (pm_bias K (fst s)))).
      - intros i Hi. apply edge_tends; [lia|exact Hi].
      - intros i Hi. apply edge_tends; [lia|exact Hi].
      - intros t q i j Ht Hq Hi Hj. apply letter_tends; try assumption; [lia|apply Hw; exact Hq].
    Qed.
    Lemma points_tends phi w : List.length w = n -> ntends (fun s => amp_points K uniform (fst s) d D phi w) (amp_points K uniform m d D phi w).
    Proof.
      intros Hl. unfold amp_points. apply (tends_amp pt near near_all near_and near_imp D (fun s => edge_at (pm_edge K (fst s)) 0) (fun s => edge_at (pm_edge K (fst s)) 1) _ _ (fun s => norm_site K d (fst s) uniform phi)).
      - intros i Hi. apply edge_tends; [lia|exact Hi].
      - intros i Hi. apply edge_tends; [lia|exact Hi].
      - intros t q i j Ht Hq Hi Hj. unfold norm_site. apply tsum. intros k Hk. apply tmul; [apply (tends_const pt near near_all)|]. apply letter_tends; try assumption. lia.
    Qed.
    (** the product of the matrices of a row, and the amplitude of the row *)
    Definition row_site (s : pt) (b t q : nat) : nat -> nat -> K :=
      match snd s with
      | TLong ix => letter_site (pm_core K (fst s)) uniform (pm_bias K (fst s)) t (Z.to_nat (get ix [b; q]))
      | TFloat v => vec_site d (pm_core K (fst s)) uniform (pm_bias K (fst s)) t (fun k => get v [b; q; k])
      end.
    Lemma sites_over {X} (site : nat -> X -> mat K) (g : nat -> X) l : forall t, sites D site t (map g l) = sites D (fun t q => site t (g q)) t l.
    Proof. induction l as [|a l IH]; intros t; cbn [map sites]; [reflexivity|]. rewrite IH. reflexivity. Qed.
    Lemma row_mats_site (s : pt) b : row_mats (pm_core K (fst s)) (pm_bias K (fst s)) uniform n d D (snd s) b = sites D (row_site s b) 0 (seq 0 n).
    Proof. unfold row_mats, row_site. destruct (snd s) as [ix|v]; [unfold row_letters|unfold row_vectors]; apply sites_over. Qed.
    Lemma row_amp_site (s : pt) b : row_amp (pm_core K (fst s)) (pm_edge K (fst s)) (pm_bias K (fst s)) uniform n d D (snd s) b
      = amplitude D (edge_at (pm_edge K (fst s)) 0) (edge_at (pm_edge K (fst s)) 1) (row_site s b) (seq 0 n).
    Proof. unfold amplitude. rewrite <- row_mats_site. unfold row_amp, row_mats, amplitude. destruct (snd s); reflexivity. Qed.
    Lemma row_site_tends b t q i j : b < batch -> t < n -> q < n -> i < D -> j < D -> ntends (fun s => row_site s b t q i j) (row_site (m, x) b t q i j).
    Proof.
      intros Hb Ht Hq Hi Hj. assert (Cx : (exists ix, x = TLong ix) \/ (exists v, x = TFloat v)) by (destruct x; eauto).
      pose proof Hx as Hx'. unfold row_site. cbn [fst snd]. destruct Cx as [[ix Ex]|[v Ex]]; rewrite Ex in Hx' |- *.
      - intros eps He. destruct Hx' as [_ Hr]. specialize (Hr b q Hb Hq).
        assert (Hk : Z.to_nat (get ix [b; q]) < d) by lia.
        destruct (letter_tends t (Z.to_nat (get ix [b; q])) i j Ht Hk Hi Hj eps He) as (e & He' & A).
        exists e. split; [exact He'|]. intros m' x' M X. specialize (A m' x' M X). rewrite Ex in X. destruct x' as [ix'|v']; [|contradiction]. cbn in X. subst ix'. exact A.
      - assert (TV : forall k, k < d -> ntends (fun s => match snd s with TFloat v' => get v' [b; q; k] | TLong _ => s0 end) (get v [b; q; k])).
        { intros k Hk. apply near_base. intros e m' x' He _ X. rewrite Ex in X. cbn [snd]. destruct x' as [ix'|v']; [contradiction|]. destruct X as [_ X]. cbn in Hx'. rewrite Hx' in X. apply X; repeat (apply Forall2_cons; [assumption|]); apply Forall2_nil. }
        assert (TT : ntends (fun s => sadd (bsum d (fun k => smul (match snd s with TFloat v' => get v' [b; q; k] | TLong _ => s0 end) (entry (pm_core K (fst s)) uniform t k i j))) (bias_at (pm_bias K (fst s)) i j)) (vec_site d (pm_core K m) uniform (pm_bias K m) t (fun k => get v [b; q; k]) i j)).
        { unfold vec_site. apply tadd; [|apply bias_tends; assumption]. apply (tsum d (fun s k => smul (match snd s with TFloat v' => get v' [b; q; k] | TLong _ => s0 end) (entry (pm_core K (fst s)) uniform t k i j))). intros k Hk. apply tmul; [apply TV; exact Hk|apply core_tends; assumption]. }
        intros eps He. destruct (TT eps He) as (e & He' & A). exists e. split; [exact He'|]. intros m' x' M X. specialize (A m' x' M X). rewrite Ex in X. destruct x' as [ix'|v']; [contradiction|]. exact A.
    Qed.
    Lemma chain_tends b i j : b < batch -> i < D -> j < D ->
      ntends (fun s => chain (row_mats (pm_core K (fst s)) (pm_bias K (fst s)) uniform n d D (snd s) b) i j) (chain (row_mats (pm_core K m) (pm_bias K m) uniform n d D x b) i j).
    Proof.
      intros Hb Hi Hj. pose proof (row_mats_site (m, x) b) as RM. cbn [fst snd] in RM. rewrite RM.
      assert (Q : ntends (fun s => chain (sites D (row_site s b) 0 (seq 0 n)) i j) (chain (sites D (row_site (m, x) b) 0 (seq 0 n)) i j)).
      { apply (tends_chain pt near near_all near_and near_imp D (fun s => row_site s b) (row_site (m, x) b) (seq 0 n) 0); try assumption.
        intros t q i' j' Ht Hq Hi' Hj'. rewrite seq_length in Ht. apply in_seq in Hq. apply row_site_tends; try assumption; lia. }
      intros eps He. refine (near_imp _ _ _ (Q eps He)). intros s A. rewrite row_mats_site. exact A.
    Qed.
    Lemma amp_tends b : b < batch -> ntends (fun s => psi K uniform (fst s) n d D (snd s) b) (psi K uniform m n d D x b).
    Proof.
      intros Hb. unfold psi. pose proof (row_amp_site (m, x) b) as RM. cbn [fst snd] in RM. rewrite RM.
      assert (Q : ntends (fun s => amplitude D (edge_at (pm_edge K (fst s)) 0) (edge_at (pm_edge K (fst s)) 1) (row_site s b) (seq 0 n)) (amplitude D (edge_at (pm_edge K m) 0) (edge_at (pm_edge K m) 1) (row_site (m, x) b) (seq 0 n))).
      { apply (tends_amp pt near near_all near_and near_imp D (fun s => edge_at (pm_edge K (fst s)) 0) (fun s => edge_at (pm_edge K (fst s)) 1) _ _ (fun s => row_site s b)).
        - intros i Hi. apply edge_tends; [lia|exact Hi].
        - intros i Hi. apply edge_tends; [lia|exact Hi].
        - intros t q i' j' Ht Hq Hi' Hj'. rewrite seq_length in Ht. apply in_seq in Hq. apply row_site_tends; try assumption; lia. }
      intros eps He. refine (near_imp _ _ _ (Q eps He)). intros s A. rewrite row_amp_site. exact A.
    Qed.
    (** a row that is not lost stays so *)
    Lemma not_lost_near slim par b : b < batch -> ~ row_lost (pm_core K m) (pm_edge K m) (pm_bias K m) uniform n d D x slim par b ->
      near (fun s => ~ row_lost (pm_core K (fst s)) (pm_edge K (fst s)) (pm_bias K (fst s)) uniform n d D (snd s) slim par b).
    Proof.
      intros Hb H. unfold row_lost in *. cbv zeta in *. destruct slim; [|destruct par].
      - apply not_all_ex_not in H. destruct H as [j H]. apply imply_to_and in H. destruct H as [Hj H].
        refine (near_imp _ _ _ (tends_nonzero pt near near_imp (fun s => vmul D (edge_at (pm_edge K (fst s)) 0) (chain (row_mats (pm_core K (fst s)) (pm_bias K (fst s)) uniform n d D (snd s) b)) j) _ _ H)).
        + intros s A B. apply A, B. exact Hj.
        + unfold vmul. apply tsum. intros i Hi. apply tmul; [apply edge_tends; [lia|exact Hi]|apply chain_tends; assumption].
      - apply not_and_or in H. destruct H as [H|H]; [apply near_all; intros s [A _]; contradiction|].
        apply not_all_ex_not in H. destruct H as [i H]. apply not_all_ex_not in H. destruct H as [j H].
        apply imply_to_and in H. destruct H as [Hi H]. apply imply_to_and in H. destruct H as [Hj H].
        refine (near_imp _ _ _ (tends_nonzero pt near near_imp (fun s => chain (row_mats (pm_core K (fst s)) (pm_bias K (fst s)) uniform n d D (snd s) b) i j) _ _ H)).
        + intros s A [_ B]. apply A, B; assumption.
        + apply chain_tends; assumption.
      - refine (near_imp _ _ _ (tends_nonzero pt near near_imp _ _ (amp_tends b Hb) H)). intros s A. exact A.
    Qed.
    (** ** logarithms *)
    Lemma ln_close (y : R) eps : (0 < y)%R -> (0 < eps)%R -> exists e, (0 < e < y)%R /\ forall z, (Rabs (z - y) < e)%R -> (0 < z)%R /\ (Rabs (ln z - ln y) < eps)%R.
    Proof.
      clear. intros Hy He. exists (y * (1 - exp (- eps)))%R. pose proof (exp_pos (- eps)) as P.
      assert (Q : (exp (- eps) < 1)%R) by (rewrite <- exp_0; apply exp_increasing; lra). split; [nra|].
      intros z Hz. apply Rabs_def2 in Hz. destruct Hz as [Hz1 Hz2].
      assert (E : (exp eps * exp (- eps) = 1)%R) by (rewrite <- exp_plus; replace (eps + - eps)%R with 0%R by ring; apply exp_0).
      assert (L1 : (y * exp (- eps) < z)%R) by lra.
      assert (L0 : (0 < y * exp (- eps))%R) by (apply Rmult_lt_0_compat; assumption).
      assert (G : (2 - exp (- eps) <= exp eps)%R).
      { pose proof (exp_pos eps) as P2. set (a := exp eps) in *. set (b := exp (- eps)) in *. assert (S : (0 <= (a - b) * (a - b))%R) by apply Rle_0_sqr. nra. }
      assert (L2 : (z < y * exp eps)%R) by nra. split; [lra|].
      assert (E1 : ln (y * exp (- eps)) = (ln y - eps)%R) by (rewrite ln_mult, ln_exp by assumption; ring).
      assert (E2 : ln (y * exp eps) = (ln y + eps)%R) by (rewrite ln_mult, ln_exp by (assumption || apply exp_pos); ring).
      assert (I1 : (ln (y * exp (- eps)) < ln z)%R) by (apply ln_increasing; assumption).
      assert (I2 : (ln z < ln (y * exp eps))%R) by (apply ln_increasing; [lra|assumption]).
      rewrite E1 in I1. rewrite E2 in I2. apply Rabs_def1; lra.
    Qed.
    (** a call with normaliser [Z] (a relation that near (m, x) only admits values close to [Z0]) *)
    Lemma calls_near (Pre : pt -> Prop) (N : pmps K -> R -> Prop) (call : pmps K -> tin K -> res (tensor xreal)) slim par Z0 T0 eps bound :
      (forall e, (0 < e)%R -> near (fun s => forall Z, N (fst s) Z -> (Rabs (Z - Z0) < e)%R)) ->
      near (fun s => Pre s -> exists Z, N (fst s) Z /\
        match call (fst s) (snd s) with
        | Ok T => (0 < Z)%R /\ (forall b, b < batch -> ~ row_lost (pm_core K (fst s)) (pm_edge K (fst s)) (pm_bias K (fst s)) uniform n d D (snd s) slim par b) /\ rows_given K uniform (fst s) n d D (snd s) Z batch T
        | Err er => er = AssertionError /\ (Z = 0%R \/ exists b, b < batch /\ row_lost (pm_core K (fst s)) (pm_edge K (fst s)) (pm_bias K (fst s)) uniform n d D (snd s) slim par b)
        end) ->
      (0 < Z0)%R -> (forall b, b < batch -> ~ row_lost (pm_core K m) (pm_edge K m) (pm_bias K m) uniform n d D x slim par b) -> rows_given K uniform m n d D x Z0 batch T0 ->
      (0 < eps)%R -> near (fun s => Pre s -> exists T, call (fst s) (snd s) = Ok T /\ logs_close eps bound T0 T).
    Proof.
      intros HN Hcall HZ0 Hl0 [S0 G0] He.
      assert (NL := near_upto pt near near_all near_and near_imp batch (fun b s => ~ row_lost (pm_core K (fst s)) (pm_edge K (fst s)) (pm_bias K (fst s)) uniform n d D (snd s) slim par b) (fun b Hb => not_lost_near slim par b Hb (Hl0 b Hb))).
      destruct (ln_close Z0 (eps / 2) HZ0 ltac:(lra)) as (eZ & HeZ & LZ).
      assert (NZ := HN eZ ltac:(lra)).
      assert (NZ2 := HN (Z0 / 2)%R ltac:(lra)).
      assert (NA : near (fun s => forall b, b < batch ->
        (psi K uniform m n d D x b <> s0 -> (0 < abs2 (psi K uniform (fst s) n d D (snd s) b))%R /\ (Rabs (ln (abs2 (psi K uniform (fst s) n d D (snd s) b)) - ln (abs2 (psi K uniform m n d D x b))) < eps / 2)%R) /\
        (psi K uniform m n d D x b = s0 -> (abs2 (psi K uniform (fst s) n d D (snd s) b) < exp bound * (Z0 / 2))%R))).
      { apply (near_upto pt near near_all near_and near_imp). intros b Hb. pose proof (tends_abs2 pt near near_imp _ _ (amp_tends b Hb)) as TA.
        pose proof (exp_pos bound) as Pb.
        destruct (classic (psi K uniform m n d D x b = s0)) as [Ez|Ez].
        - assert (Hp : (0 < exp bound * (Z0 / 2))%R) by (apply Rmult_lt_0_compat; lra).
          refine (near_imp _ _ _ (TA _ Hp)). intros s A. split; [intros Q; contradiction|]. intros _. rewrite Ez, abs2_s0, Rminus_0_r, Rabs_pos_eq in A by apply abs2_nonneg. exact A.
        - assert (Hp : (0 < abs2 (psi K uniform m n d D x b))%R) by (destruct (abs2_nonneg K (psi K uniform m n d D x b)) as [Q|Q]; [exact Q|]; exfalso; apply Ez, (abs2_zero K); symmetry; exact Q).
          destruct (ln_close _ (eps / 2) Hp ltac:(lra)) as (eA & HeA & LA).
          refine (near_imp _ _ _ (TA eA ltac:(lra))). intros s A. split; [intros _; exact (LA _ A)|intros Q; contradiction]. }
      refine (near_imp _ _ _ (near_and _ _ (near_and _ _ Hcall NL) (near_and _ _ (near_and _ _ NZ NZ2) NA))).
      intros s [[C0 L] [[Z1 Z2] A]] HP. destruct (C0 HP) as (Z & HZ & C). specialize (Z1 Z HZ). specialize (Z2 Z HZ). destruct (LZ Z Z1) as [HZp LZ'].
      destruct (call (fst s) (snd s)) as [T|er].
      2:{ exfalso. destruct C as [_ [C|(b & Hb & C)]]; [lra|exact (L b Hb C)]. }
      destruct C as (_ & _ & ST & GT). exists T. split; [reflexivity|]. split; [congruence|].
      intros i Hi. rewrite S0 in Hi. inversion Hi as [|b ? ? ? Hb Hr]; subst. inversion Hr; subst. clear Hr Hi.
      destruct (G0 b Hb) as [G01 G02]. destruct (GT b Hb) as [GT1 GT2]. fold (psi K uniform m n d D x b) in G01, G02. fold (psi K uniform (fst s) n d D (snd s) b) in GT1, GT2.
      destruct (A b Hb) as [A1 A2].
      destruct (classic (psi K uniform m n d D x b = s0)) as [Ez|Ez].
      - rewrite (G01 Ez). specialize (A2 Ez). destruct (classic (psi K uniform (fst s) n d D (snd s) b = s0)) as [Ez'|Ez']; [rewrite (GT1 Ez'); exact Logic.I|].
        rewrite (GT2 Ez'). cbn [entry_close].
        assert (Hp : (0 < abs2 (psi K uniform (fst s) n d D (snd s) b))%R) by (destruct (abs2_nonneg K (psi K uniform (fst s) n d D (snd s) b)) as [Q|Q]; [exact Q|]; exfalso; apply Ez', (abs2_zero K); symmetry; exact Q).
        rewrite <- (ln_exp bound). apply ln_increasing; [apply Rdiv_lt_0_compat; assumption|].
        apply Rabs_def2 in Z2. pose proof (exp_pos bound).
        apply (Rmult_lt_reg_r Z); [exact HZp|]. unfold Rdiv. rewrite Rmult_assoc, Rinv_l, Rmult_1_r by lra. nra.
      - rewrite (G02 Ez). destruct (A1 Ez) as [Hp LA].
        assert (Ez' : psi K uniform (fst s) n d D (snd s) b <> s0) by (intros Q; rewrite Q, abs2_s0 in Hp; lra).
        rewrite (GT2 Ez'). cbn [entry_close].
        assert (Hp0 : (0 < abs2 (psi K uniform m n d D x b))%R) by (destruct (abs2_nonneg K (psi K uniform m n d D x b)) as [Q|Q]; [exact Q|]; exfalso; apply Ez, (abs2_zero K); symmetry; exact Q).
        unfold Rdiv. rewrite !ln_mult, !ln_Rinv by (try apply Rinv_0_lt_compat; assumption).
        apply Rabs_def2 in LZ'. apply Rabs_def2 in LA. apply Rabs_def1; lra.
    Qed.
    Lemma shapes_near : near (fun s => shapes_of K uniform (fst s) n d D /\ wf_input (K := K) (snd s) batch n d /\ pm_emb K (fst s) = pm_emb K m /\ (pm_bias K m = None -> pm_bias K (fst s) = None)).
    Proof.
      exists 1%R. split; [lra|]. intros m' x' ([M1 _] & [M2 _] & M3 & M4) X. cbn [fst snd]. split; [|split; [|split; [exact M4|]]].
      - assert (Sb : match pm_bias K m with None => True | Some b => shp b = [D; D] end -> match pm_bias K m' with None => True | Some b => shp b = [D; D] end).
        { destruct (pm_bias K m), (pm_bias K m'); try contradiction; [|trivial]. destruct M3 as [M3 _]. rewrite M3. trivial. }
        clear - Hsh M1 M2 Sb. destruct uniform; cbn [shapes_of] in *; unfold shapes_unif, shapes_fixed in *; rewrite M1, M2; tauto.
      - destruct x, x'; try contradiction; cbn in *; [subst; exact Hx|]. destruct X as [X _]. congruence.
      - intros Q. rewrite Q in M3. destruct (pm_bias K m'); [contradiction|reflexivity].
    Qed.
    Lemma Z_tends (wt : nat -> R) k (f : pt -> list nat -> K) (g : list nat -> K) : (forall w, In w (words k n) -> ntends (fun s => f s w) (g w)) ->
      nrtends (fun s => lsum (K := R_ops) (words k n) (fun w => (weight_of wt w * abs2 (f s w))%R)) (lsum (K := R_ops) (words k n) (fun w => (weight_of wt w * abs2 (g w))%R)).
    Proof.
      intros H. apply (rtends_lsum pt near near_all near_and near_imp (words k n) (fun s w => (weight_of wt w * abs2 (f s w))%R)). intros w Hw.
      apply (rtends_scale pt near near_imp). apply (tends_abs2 pt near near_imp). apply H. exact Hw.
    Qed.
  End At.

  (** ** C119 *)
  Theorem C119_prob (uniform : bool) (m : pmps K) (x : tin K) (slim par : bool) (batch n d D : nat) (T : tensor xreal) eps bound :
    shapes_of K uniform m n d D -> pm_emb K m = None -> wf_input (K := K) x batch n d -> 0 < n -> (slim = true -> pm_bias K m = None) ->
    snd (fwd K uniform m x slim par) = Ok T -> (0 < eps)%R ->
    exists delta, (0 < delta)%R /\ forall m' x', model_within delta m m' -> input_within delta x x' ->
      exists T', snd (fwd K uniform m' x' slim par) = Ok T' /\ logs_close eps bound T T'.
  Proof.
    intros Hsh He Hx Hn Hsl E Heps.
    pose proof (C90_forward_exact K uniform m x slim par batch n d D Hsh He Hx Hn Hsl) as X. cbv zeta in X. rewrite E in X. destruct X as (HZ & HL & HG).
    assert (Q := calls_near uniform m n d D batch x Hsh Hx Hn (fun _ => True) (fun m' Z => Z = Zfun K uniform m' n d D) (fun m' x' => snd (fwd K uniform m' x' slim par)) slim par (Zfun K uniform m n d D) T eps bound).
    destruct Q as (delta & Hd & Q); try assumption.
    - intros e Hpe. assert (TZ : rtends (pt) (near m x) (fun s => Zfun K uniform (fst s) n d D) (Zfun K uniform m n d D)).
      { unfold Zfun, partition_fn. apply (rtends_lsum pt (near m x) (near_all m x) (near_and m x) (near_imp m x) (words d n) (fun s w => abs2 (amp_letters K uniform (fst s) D w))).
        intros w Hw. apply (tends_abs2 pt (near m x) (near_imp m x) (fun s => amp_letters K uniform (fst s) D w) (amp_letters K uniform m D w)).
        apply (word_tends uniform m n d D x Hsh Hn); [exact (words_length d n w Hw)|exact (words_letters d n w Hw)]. }
      refine (near_imp m x _ _ _ (TZ e Hpe)). intros s A Z ->. exact A.
    - refine (near_imp m x _ _ _ (shapes_near uniform m n d D batch x Hsh Hx)). intros s (Hs' & Hx' & He' & Hb') _.
      exists (Zfun K uniform (fst s) n d D). split; [reflexivity|].
      apply (C90_forward_exact K uniform (fst s) (snd s) slim par batch n d D Hs'); try assumption; [rewrite He'; exact He|]. intros W. apply Hb', Hsl, W.
    - exists delta. split; [exact Hd|]. intros m' x' M X. exact (Q m' x' M X Logic.I).
  Qed.
  Lemma used_unique d g lam1 lam2 : used_weights K d g lam1 -> used_weights K d g lam2 -> forall k, lam1 k = lam2 k.
  Proof. intros [[A1 L1]|[(k1 & Hk1 & A1) L1]] [[A2 L2]|[(k2 & Hk2 & A2) L2]] k; rewrite L1, L2; try reflexivity; exfalso; [exact (A2 (A1 k2 Hk2))|exact (A1 (A2 k1 Hk1))]. Qed.
  Theorem C119_embedded (uniform : bool) (m : pmps K) e x v (slim par : bool) (batch n d D M : nat) wt phi (T : tensor xreal) eps bound :
    shapes_of K uniform m n d D -> pm_emb K m = Some e -> embedded_call K e batch n d x v M wt phi -> 0 < n -> (slim = true -> pm_bias K m = None) ->
    snd (fwd K uniform m x slim par) = Ok T -> (0 < eps)%R ->
    exists delta, (0 < delta)%R /\ forall m', model_within delta m m' ->
      exists T', snd (fwd K uniform m' x slim par) = Ok T' /\ logs_close eps bound T T'.
  Proof.
    intros Hsh He Hc Hn Hsl E Heps.
    assert (Hv : wf_input (K := K) (TFloat v) batch n d).
    { destruct Hc as [f M mn ix phi Hb Hf Hx|f a b y phi Hab Hb Hf Hs Hr]; cbn [wf_input].
      - destruct Hx as [Sx Hx]. destruct (Hf ix) as [Sf _].
        + intros i Hi. rewrite Sx in Hi. inversion Hi as [|i0 ? ? ? H0 Hr]; subst. inversion Hr as [|i1 ? ? ? H1 Hr1]; subst. inversion Hr1; subst. apply Hx; assumption.
        + rewrite Sf, Sx. reflexivity.
      - destruct (Hf y Hr) as [Sf _]. rewrite Sf, Hs. reflexivity. }
    destruct (emb_call_exact K uniform m e x v slim par batch n d D M wt phi Hsh He Hc Hn Hsl) as (Z0 & N0 & X). rewrite E in X. destruct X as (HZ & HL & HG).
    assert (Q := calls_near uniform m n d D batch (TFloat v) Hsh Hv Hn (fun s => snd s = TFloat v) (fun m' Z => normaliser K uniform m' n d D M wt phi Z) (fun m' _ => snd (fwd K uniform m' x slim par)) slim par Z0 T eps bound).
    destruct Q as (delta & Hd & Q); try assumption.
    - intros eta Heta. set (nr := near m (TFloat v)).
      assert (TP : rtends pt nr (fun s => lsum (K := R_ops) (words M n) (fun w => (weight_of wt w * abs2 (amp_points K uniform (fst s) d D phi w))%R)) (lsum (K := R_ops) (words M n) (fun w => (weight_of wt w * abs2 (amp_points K uniform m d D phi w))%R))).
      { apply (Z_tends m n (TFloat v) wt). intros w Hw. apply (points_tends uniform m n d D (TFloat v) Hsh Hn). exact (words_length M n w Hw). }
      assert (TL : forall lam, rtends pt nr (fun s => lsum (K := R_ops) (words d n) (fun w => (weight_of lam w * abs2 (amp_letters K uniform (fst s) D w))%R)) (lsum (K := R_ops) (words d n) (fun w => (weight_of lam w * abs2 (amp_letters K uniform m D w))%R))).
      { intros lam. apply (Z_tends m n (TFloat v) lam). intros w Hw. apply (word_tends uniform m n d D (TFloat v) Hsh Hn); [exact (words_length d n w Hw)|exact (words_letters d n w Hw)]. }
      apply normaliser_as in N0. destruct N0 as [[V E0]|[V (lam0 & U0 & E0)]].
      + refine (near_imp m (TFloat v) _ _ _ (TP eta Heta)). intros s A Z NZ. apply normaliser_as in NZ. destruct NZ as [[_ EZ]|[V' _]]; [|contradiction]. rewrite E0, EZ. exact A.
      + refine (near_imp m (TFloat v) _ _ _ (TL lam0 eta Heta)). intros s A Z NZ. apply normaliser_as in NZ. destruct NZ as [[V' _]|[_ (lam & U & EZ)]]; [contradiction|]. rewrite E0, EZ.
        assert (W : lsum (K := R_ops) (words d n) (fun w => (weight_of lam w * abs2 (amp_letters K uniform (fst s) D w))%R) = lsum (K := R_ops) (words d n) (fun w => (weight_of lam0 w * abs2 (amp_letters K uniform (fst s) D w))%R)).
        { apply (lsum_ext R_cring). intros w _. assert (W : weight_of lam w = weight_of lam0 w) by (unfold weight_of; induction w as [|k w IH]; cbn [fold_right]; [reflexivity|rewrite IH, (used_unique _ _ _ _ U U0 k); reflexivity]). rewrite W. reflexivity. }
        refine (eq_ind_r (fun z => (Rabs (z - _) < eta)%R) A W).
    - refine (near_imp m (TFloat v) _ _ _ (shapes_near uniform m n d D batch (TFloat v) Hsh Hv)). intros s (Hs' & _ & He' & Hb') Es. rewrite Es.
      destruct (emb_call_exact K uniform (fst s) e x v slim par batch n d D M wt phi Hs' ltac:(rewrite He'; exact He) Hc Hn ltac:(intros W; apply Hb', Hsl, W)) as (Z & NZ & Y).
      exists Z. split; [exact NZ|]. exact Y.
    - exists delta. split; [exact Hd|]. intros m' Mw. refine (Q m' (TFloat v) Mw _ eq_refl). cbn. split; [reflexivity|]. intros i _. replace (ssub (get v i) (get v i)) with (s0 : K) by ring. rewrite nabs_zero. exact Hd.
  Qed.
  (** the training loss: where all log probabilities are finite, it moves by less than eps too *)
  Definition loss_call (uniform : bool) (m : pmps K) (x : tin K) (slim par : bool) := if uniform then loss_unif K m x slim par else loss_fixed K m x slim par.
  Lemma mean_close batch (l l' : nat -> R) eps : 0 < batch -> (forall b, b < batch -> (Rabs (l' b - l b) < eps)%R) ->
    (Rabs (- (bsum (S := R_ops) batch l' / INR batch) - - (bsum (S := R_ops) batch l / INR batch)) < eps)%R.
  Proof.
    intros Hb H.
    assert (G : forall k, k < batch -> (Rabs (bsum (S := R_ops) (Datatypes.S k) l' - bsum (S := R_ops) (Datatypes.S k) l) < INR (Datatypes.S k) * eps)%R).
    { induction k as [|k IH]; intros Hk.
      - cbn [bsum sadd s0 R_ops]. replace (0 + l' 0%nat - (0 + l 0%nat))%R with (l' 0%nat - l 0%nat)%R by ring. cbn [INR]. rewrite Rmult_1_l. apply H. lia.
      - specialize (IH ltac:(lia)). pose proof (H (Datatypes.S k) Hk) as H1. rewrite S_INR.
        change (bsum (S := R_ops) (Datatypes.S (Datatypes.S k)) l') with (bsum (S := R_ops) (Datatypes.S k) l' + l' (Datatypes.S k))%R.
        change (bsum (S := R_ops) (Datatypes.S (Datatypes.S k)) l) with (bsum (S := R_ops) (Datatypes.S k) l + l (Datatypes.S k))%R.
        set (u := bsum (S := R_ops) (Datatypes.S k) l') in *. set (w := bsum (S := R_ops) (Datatypes.S k) l) in *.
        replace (u + l' (Datatypes.S k) - (w + l (Datatypes.S k)))%R with ((u - w) + (l' (Datatypes.S k) - l (Datatypes.S k)))%R by ring.
        pose proof (Rabs_triang (u - w) (l' (Datatypes.S k) - l (Datatypes.S k))). lra. }
    destruct batch as [|k]; [lia|]. specialize (G k ltac:(lia)). assert (HI : (0 < INR (Datatypes.S k))%R) by (apply lt_0_INR; lia).
    set (u := bsum (S := R_ops) (Datatypes.S k) l') in *. set (w := bsum (S := R_ops) (Datatypes.S k) l) in *. set (c := INR (Datatypes.S k)) in *. 
    replace (- (u / c) - - (w / c))%R with (- ((u - w) * / c))%R by (field; lra). rewrite Rabs_Ropp, Rabs_mult, (Rabs_pos_eq (/ c)) by (left; apply Rinv_0_lt_compat; exact HI).
    apply (Rmult_lt_reg_r c); [exact HI|]. rewrite Rmult_assoc, Rinv_l, Rmult_1_r by lra. lra.
  Qed.
  Lemma loss_close (uniform : bool) (m' : pmps K) x' slim par batch T T' l eps bound : 0 < batch -> shp T = [batch] -> (forall b, b < batch -> get T [b] = XFin (l b)) ->
    snd (fwd K uniform m' x' slim par) = Ok T' -> logs_close eps bound T T' ->
    exists r', snd (loss_call uniform m' x' slim par) = Ok (XFin r') /\ (Rabs (r' - - (bsum (S := R_ops) batch l / INR batch)) < eps)%R.
  Proof.
    intros Hb ST HT E [S' HC].
    assert (F : forall b, b < batch -> get T' [b] = XFin (match get T' [b] with XFin u => u | _ => 0%R end) /\ (Rabs (match get T' [b] with XFin u => u | _ => 0%R end - l b) < eps)%R).
    { intros b Hb'. assert (V : valid (shp T) [b]) by (rewrite ST; apply Forall2_cons; [exact Hb'|apply Forall2_nil]). specialize (HC [b] V). rewrite (HT b Hb') in HC.
      destruct (get T' [b]); try contradiction. split; [reflexivity|exact HC]. }
    exists (- (bsum (S := R_ops) batch (fun b => match get T' [b] with XFin u => u | _ => 0%R end) / INR batch))%R. split.
    - refine (C15_loss_mean K uniform m' x' slim par batch T' _ E _ Hb _); [congruence|]. intros b Hb'. apply F. exact Hb'.
    - apply mean_close; [exact Hb|]. intros b Hb'. apply F. exact Hb'.
  Qed.
  Theorem C119_loss (uniform : bool) (m : pmps K) (x : tin K) (slim par : bool) (batch n d D : nat) (T : tensor xreal) l eps :
    shapes_of K uniform m n d D -> pm_emb K m = None -> wf_input (K := K) x batch n d -> 0 < n -> 0 < batch -> (slim = true -> pm_bias K m = None) ->
    snd (fwd K uniform m x slim par) = Ok T -> (forall b, b < batch -> get T [b] = XFin (l b)) -> (0 < eps)%R ->
    exists r, snd (loss_call uniform m x slim par) = Ok (XFin r) /\
    exists delta, (0 < delta)%R /\ forall m' x', model_within delta m m' -> input_within delta x x' ->
      exists r', snd (loss_call uniform m' x' slim par) = Ok (XFin r') /\ (Rabs (r' - r) < eps)%R.
  Proof.
    intros Hsh He Hx Hn Hb Hsl E HT Heps.
    pose proof (C90_forward_exact K uniform m x slim par batch n d D Hsh He Hx Hn Hsl) as X. cbv zeta in X. rewrite E in X. destruct X as (_ & _ & ST & _).
    exists (- (bsum (S := R_ops) batch l / INR batch))%R. split; [exact (C15_loss_mean K uniform m x slim par batch T l E ST Hb HT)|].
    destruct (C119_prob uniform m x slim par batch n d D T eps 0 Hsh He Hx Hn Hsl E Heps) as (delta & Hd & H). exists delta. split; [exact Hd|]. intros m' x' M X.
    destruct (H m' x' M X) as (T' & E' & C). exact (loss_close uniform m' x' slim par batch T T' l eps 0 Hb ST HT E' C).
  Qed.
  Theorem C119_loss_embedded (uniform : bool) (m : pmps K) e x v (slim par : bool) (batch n d D M : nat) wt phi (T : tensor xreal) l eps :
    shapes_of K uniform m n d D -> pm_emb K m = Some e -> embedded_call K e batch n d x v M wt phi -> 0 < n -> 0 < batch -> (slim = true -> pm_bias K m = None) ->
    snd (fwd K uniform m x slim par) = Ok T -> (forall b, b < batch -> get T [b] = XFin (l b)) -> (0 < eps)%R ->
    exists r, snd (loss_call uniform m x slim par) = Ok (XFin r) /\
    exists delta, (0 < delta)%R /\ forall m', model_within delta m m' ->
      exists r', snd (loss_call uniform m' x slim par) = Ok (XFin r') /\ (Rabs (r' - r) < eps)%R.
  Proof.
    intros Hsh He Hc Hn Hb Hsl E HT Heps.
    destruct (emb_call_exact K uniform m e x v slim par batch n d D M wt phi Hsh He Hc Hn Hsl) as (Z0 & _ & X). rewrite E in X. destruct X as (_ & _ & ST & _).
    exists (- (bsum (S := R_ops) batch l / INR batch))%R. split; [exact (C15_loss_mean K uniform m x slim par batch T l E ST Hb HT)|].
    destruct (C119_embedded uniform m e x v slim par batch n d D M wt phi T eps 0 Hsh He Hc Hn Hsl E Heps) as (delta & Hd & H). exists delta. split; [exact Hd|]. intros m' Mw.
    destruct (H m' Mw) as (T' & E' & C). exact (loss_close uniform m' x slim par batch T T' l eps 0 Hb ST HT E' C).
  Qed.
End Cont.

(** ** Hypotheses met: a biased two-site model on all words, and for every delta another model within delta *)
Example C119_met : exists T, snd (fwd R_num false pe_mb (TLong pe_all) false true) = Ok T /\ shapes_of R_num false pe_mb 2 2 2 /\ pm_emb R_num pe_mb = None /\ wf_input (K := R_num) (TLong pe_all) 4 2 2 /\
  forall delta, (0 < delta)%R -> exists m', m' <> pe_mb /\ model_within R_num delta pe_mb m'.
Proof.
  destruct C09_returns as (T & E). exists T. split; [exact E|]. split; [apply C09_hyps_met|]. split; [reflexivity|]. split; [apply pe_wf|].
  intros delta Hd. exists (mkP R_num pe_core4 pe_edge (Some (tmap (fun z => z + delta / 2)%R pe_bias)) None).
  assert (W : forall t : tensor R_num, within R_num delta t t).
  { intros t. split; [reflexivity|]. intros i _. cbn. rewrite Rminus_eq_0, Rabs_R0. exact Hd. }
  split.
  - intros Q. apply (f_equal (fun m => match pm_bias R_num m with Some b => get b [0; 0] | None => 0%R end)) in Q. cbn in Q. lra.
  - split; [apply W|]. split; [apply W|]. split; [|reflexivity]. cbn [pm_bias pe_mb]. split; [reflexivity|]. intros i _. cbn [get tmap].
    match goal with |- (?a < _)%R => replace a with (delta / 2)%R end; [lra|]. symmetry. cbn [nabs R_num ssub nring R_cring rops R_ops].
    match goal with |- Rabs ?z = _ => replace z with (delta / 2)%R by (cbn; ring) end. apply Rabs_pos_eq. lra.
Qed.
Print Assumptions C119_prob.
Print Assumptions C119_embedded.
Print Assumptions C119_loss.
Print Assumptions C119_loss_embedded.
