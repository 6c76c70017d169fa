(** * P_Gibbs: C105, the smallest loss a probabilistic model can reach on a data set. *)
From Coq Require Import Ring_theory Ring Reals Lra Permutation.
From Verif Require Import Base Scalars Tensor Utils2 MpsBase Embeddings ProbMps Spec MatSpec ModelSpec LinAlg LogNorm ProbProofs P_Prob P_Sym2.

(** ** Specification: the relative frequency of a word among the rows of a batch, and the entropy of the data
    - sum_w f(w) ln f(w), over all words of length n (0 ln 0 = 0) *)
Definition rows_of (ix : tensor Z) (batch n : nat) : list (list nat) := map (row_letters ix n) (seq 0 batch).
Definition occurrences (ix : tensor Z) (batch n : nat) (w : list nat) : nat := count_occ (list_eq_dec Nat.eq_dec) (rows_of ix batch n) w.
Definition frequency (ix : tensor Z) (batch n : nat) (w : list nat) : R := (INR (occurrences ix batch n w) / INR batch)%R.
Definition data_entropy (ix : tensor Z) (batch n d : nat) : R :=
  (- lsum (K := R_ops) (words d n) (fun w => frequency ix batch n w * ln (frequency ix batch n w)))%R.

(** ** Sums *)
Ltac rring := match goal with |- ?x = ?y => change (@eq R x y) end; ring.
Notation rsum := (lsum (K := R_ops)).
Notation weq := (list_eq_dec Nat.eq_dec).
Lemma rsum_cons {X} (x : X) l (f : X -> R) : rsum (x :: l) f = (f x + rsum l f)%R.
Proof. reflexivity. Qed.
Lemma rsum_ext {X} (l : list X) (f g : X -> R) : (forall x, In x l -> f x = g x) -> rsum l f = rsum l g.
Proof. exact (lsum_ext R_cring l f g). Qed.
Lemma rsum_add {X} (l : list X) (f g : X -> R) : rsum l (fun x => (f x + g x)%R) = (rsum l f + rsum l g)%R.
Proof. exact (lsum_add R_cring l f g). Qed.
Lemma rsum_mul {X} (l : list X) (c : R) (f : X -> R) : rsum l (fun x => (f x * c)%R) = (rsum l f * c)%R.
Proof. exact (lsum_mul_r R_cring l c f). Qed.
Lemma rsum_sub {X} (l : list X) (f g : X -> R) : rsum l (fun x => (f x - g x)%R) = (rsum l f - rsum l g)%R.
Proof. induction l as [|x l IH]; [change (0 = 0 - 0)%R; rring|]. rewrite !rsum_cons, IH. change (f x - g x + (rsum l f - rsum l g) = f x + rsum l f - (g x + rsum l g))%R. rring. Qed.
Lemma rsum_pick (W : list (list nat)) (x : list nat) (g : list nat -> R) : NoDup W -> In x W ->
  rsum W (fun w => if weq x w then g w else 0%R) = g x.
Proof.
  intros HN. induction HN as [|y W Hy HN IH]; intros Hin; [destruct Hin|]. rewrite rsum_cons.
  destruct Hin as [->|Hin].
  - destruct (weq x x) as [_|C]; [|contradiction].
    assert (E : rsum W (fun w => if weq x w then g w else 0%R) = 0%R).
    { apply (lsum_zero R_cring). intros w Hw. destruct (weq x w) as [->|_]; [contradiction|reflexivity]. }
    rewrite E. rring.
  - rewrite (IH Hin). destruct (weq x y) as [->|_]; [contradiction|rring].
Qed.
(** grouping equal rows *)
Lemma rsum_group (W L : list (list nat)) (g : list nat -> R) : NoDup W -> incl L W ->
  rsum L g = rsum W (fun w => (INR (count_occ weq L w) * g w)%R).
Proof.
  intros HN. induction L as [|x L IH]; intros Hi.
  - symmetry. apply (lsum_zero R_cring). intros w _. cbn. apply Rmult_0_l.
  - rewrite rsum_cons, IH by (intros y Hy; apply Hi; right; exact Hy).
    rewrite <- (rsum_pick W x g HN (Hi x (or_introl eq_refl))), <- rsum_add. apply rsum_ext. intros w _.
    cbn [count_occ]. destruct (weq x w); [rewrite S_INR|]; rring.
Qed.

(** ** Gibbs' inequality *)
Lemma ln_lt t : (0 < t -> t <> 1 -> ln t < t - 1)%R.
Proof.
  intros Ht Hn. assert (H : ln t <> 0%R).
  { intros E. apply Hn. rewrite <- (exp_ln t Ht), E. apply exp_0. }
  pose proof (exp_ineq1 (ln t) H) as G. rewrite (exp_ln t Ht) in G. lra.
Qed.
Lemma gibbs_term f p : (0 <= f -> 0 <= p -> (0 < f -> 0 < p) -> 0 <= p - f - (f * ln p - f * ln f) /\
  (0 < f -> p - f - (f * ln p - f * ln f) = 0 -> p = f))%R.
Proof.
  intros Hf Hp Hfp. destruct (Req_dec f 0) as [->|Hne]; [split; [rewrite !Rmult_0_l; lra|lra]|].
  assert (F : (0 < f)%R) by lra. specialize (Hfp F).
  assert (E : (f * ln p - f * ln f = f * ln (p / f))%R).
  { unfold Rdiv. rewrite ln_mult, ln_Rinv; [ring|lra|lra|apply Rinv_0_lt_compat; lra]. }
  rewrite E. destruct (Req_dec (p / f) 1) as [H1|H1].
  - assert (p = f). { apply (Rmult_eq_reg_r (/ f)); [|apply Rinv_neq_0_compat; lra]. rewrite Rinv_r by lra. exact H1. }
    subst p. rewrite H1, ln_1. split; [lra|intros; reflexivity].
  - assert (L : (ln (p / f) < p / f - 1)%R).
    { apply ln_lt; [|exact H1]. unfold Rdiv. apply Rmult_lt_0_compat; [lra|apply Rinv_0_lt_compat; lra]. }
    assert (G : (f * ln (p / f) < p - f)%R).
    { replace (p - f)%R with (f * (p / f - 1))%R by (field; lra). apply Rmult_lt_compat_l; assumption. }
    split; [lra|]. intros _ C. lra.
Qed.
Lemma gibbs {X} (W : list X) (f p : X -> R) :
  (forall w, In w W -> 0 <= f w)%R -> (forall w, In w W -> 0 <= p w)%R -> (forall w, In w W -> 0 < f w -> 0 < p w)%R ->
  (rsum W f = 1)%R -> (rsum W p = 1)%R ->
  (rsum W (fun w => f w * ln (p w)) <= rsum W (fun w => f w * ln (f w)) /\
   (rsum W (fun w => f w * ln (p w)) = rsum W (fun w => f w * ln (f w)) <-> forall w, In w W -> 0 < f w -> p w = f w))%R.
Proof.
  intros Hf Hp Hfp Sf Sp.
  set (t := fun w => (p w - f w - (f w * ln (p w) - f w * ln (f w)))%R).
  assert (St : rsum W t = (rsum W (fun w => f w * ln (f w)) - rsum W (fun w => f w * ln (p w)))%R).
  { unfold t. rewrite rsum_sub, !rsum_sub, Sf, Sp. rring. }
  assert (Ht : forall w, In w W -> (0 <= t w)%R).
  { intros w Hw. apply (gibbs_term (f w) (p w) (Hf w Hw) (Hp w Hw) (Hfp w Hw)). }
  pose proof (lsumR_nonneg W t Ht) as N. split; [lra|]. split.
  - intros E w Hw Hfw. assert (Z0 : rsum W t = 0%R) by lra.
    pose proof (lsumR_zero W t Ht Z0 w Hw) as Tw. apply (gibbs_term (f w) (p w) (Hf w Hw) (Hp w Hw) (Hfp w Hw)); assumption.
  - intros E. apply rsum_ext. intros w Hw. destruct (Hf w Hw) as [Hw'|Hw'].
    + rewrite (E w Hw Hw'). reflexivity.
    + rewrite <- Hw'. ring.
Qed.

(** ** The rows of a batch *)
Lemma frequency_nonneg ix batch n w : 0 < batch -> (0 <= frequency ix batch n w)%R.
Proof. intros Hb. unfold frequency, Rdiv. apply Rmult_le_pos; [apply pos_INR|]. left. apply Rinv_0_lt_compat. apply lt_0_INR. exact Hb. Qed.
Lemma frequency_row ix batch n b : b < batch -> (0 < frequency ix batch n (row_letters ix n b))%R.
Proof.
  intros Hb. unfold frequency, Rdiv. apply Rmult_lt_0_compat; [|apply Rinv_0_lt_compat, lt_0_INR; lia].
  apply lt_0_INR. unfold occurrences. apply count_occ_In. unfold rows_of. apply in_map. apply in_seq. lia.
Qed.
Lemma frequency_pos_row ix batch n w : (0 < frequency ix batch n w)%R -> exists b, b < batch /\ row_letters ix n b = w.
Proof.
  intros H. assert (G : 0 < occurrences ix batch n w).
  { destruct (occurrences ix batch n w) eqn:E; [|lia]. unfold frequency in H. rewrite E in H. cbn [INR] in H. unfold Rdiv in H. rewrite Rmult_0_l in H. lra. }
  unfold occurrences in G. apply count_occ_In in G. unfold rows_of in G. apply in_map_iff in G as (b & <- & Hb). apply in_seq in Hb. exists b. split; [lia|reflexivity].
Qed.

Section Gibbs.
  Variable K : numfield.
  Add Ring KrGi : (rth K).
  Variables (ix : tensor Z) (batch n d : nat).
  Hypotheses (Hx : wf_input (K := K) (TLong ix) batch n d) (Hb0 : 0 < batch).
  Notation freq := (frequency ix batch n).
  Lemma rows_words : incl (rows_of ix batch n) (words d n).
  Proof. intros w Hw. unfold rows_of in Hw. apply in_map_iff in Hw as (b & <- & Hb). apply in_seq in Hb. apply (row_in_words K ix batch n d b Hx). lia. Qed.
  Lemma mean_rows (g : list nat -> R) : (bsum (S := R_ops) batch (fun b => g (row_letters ix n b)) / INR batch = rsum (words d n) (fun w => freq w * g w))%R.
  Proof.
    assert (E : bsum (S := R_ops) batch (fun b => g (row_letters ix n b)) = rsum (rows_of ix batch n) g).
    { unfold rows_of. rewrite (lsum_map R_cring). symmetry. apply (lsum_seq R_cring). }
    rewrite E, (rsum_group (words d n) _ g (words_nodup d n) rows_words).
    unfold Rdiv. rewrite <- rsum_mul. apply rsum_ext. intros w _. unfold frequency, occurrences. unfold Rdiv. ring.
  Qed.
  Lemma INRb : INR batch <> 0%R.
  Proof. apply not_0_INR. lia. Qed.
  Lemma frequency_sum : rsum (words d n) freq = 1%R.
  Proof.
    transitivity (rsum (words d n) (fun w => freq w * 1)%R); [apply rsum_ext; intros; ring|].
    rewrite <- (mean_rows (fun _ => 1%R)).
    assert (E : bsum (S := R_ops) batch (fun _ => 1%R) = INR batch).
    { clear. induction batch as [|k IH]; [reflexivity|]. rewrite S_INR. cbn [bsum]. rewrite IH. reflexivity. }
    rewrite E. apply Rinv_r, INRb.
  Qed.
  Lemma entropy_rows : data_entropy ix batch n d = (- (bsum (S := R_ops) batch (fun b => ln (freq (row_letters ix n b))) / INR batch))%R.
  Proof. unfold data_entropy. rewrite (mean_rows (fun w => ln (freq w))). reflexivity. Qed.

  (** *** C105: whatever the parameters, the loss on a batch of sequences is at least the entropy of the batch, and it
      equals the entropy exactly when the model gives every sequence of the batch its relative frequency *)
  Theorem C105_entropy_bound (uniform : bool) (m : pmps K) (slim par : bool) (D : nat) (l : xreal) :
    shapes_of K uniform m n d D -> pm_emb K m = None -> 0 < n ->
    snd (if uniform then loss_unif K m (TLong ix) slim par else loss_fixed K m (TLong ix) slim par) = Ok l ->
    exists T, snd (fwd K uniform m (TLong ix) slim par) = Ok T /\
      ((l = XPInf /\ exists b, b < batch /\ get T [b] = XNInf) \/
       exists v, l = XFin v /\ (data_entropy ix batch n d <= v)%R /\
         (v = data_entropy ix batch n d <-> forall b, b < batch -> prob_of (get T [b]) = freq (row_letters ix n b))).
  Proof.
    intros Hsh He Hn El.
    destruct (snd (fwd K uniform m (TLong ix) slim par)) as [T|e] eqn:E.
    2:{ rewrite (C15_loss_raises K uniform m (TLong ix) slim par e E) in El. discriminate. }
    exists T. split; [reflexivity|].
    assert (Hsl : slim = true -> pm_bias K m = None).
    { intros ->. destruct (pm_bias K m) as [bm|] eqn:Eb; [|reflexivity]. exfalso.
      destruct uniform; cbn [fwd] in E.
      - unfold forward_unif in E. destruct Hx as [Hs _]. cbn [tin_shp] in E. rewrite Hs in E.
        unfold embed in E. rewrite He in E. cbn [snd rbind] in E. unfold amplitudes in E. rewrite Eb in E. discriminate.
      - unfold forward_fixed, embed in E. rewrite He in E. cbn [snd rbind] in E. unfold amplitudes in E. rewrite Eb in E. discriminate. }
    destruct (forward_ok K uniform m (TLong ix) slim par batch n d D Hsh He Hx Hn Hsl) as [H _].
    rewrite E in H. destruct H as (HZ & HT & H).
    set (Zn := model_Z K m uniform n d D) in *.
    set (q := fun w => (abs2 (amplitude D (edge_at (pm_edge K m) 0) (edge_at (pm_edge K m) 1)
                 (letter_site (pm_core K m) uniform (pm_bias K m)) w) / Zn)%R).
    assert (H' : forall b, b < batch -> is_log (get T [b]) (q (row_letters ix n b))) by exact H. clear H.
    assert (Hq : forall w, (0 <= q w)%R).
    { intros w. unfold q, Rdiv. apply Rmult_le_pos; [apply abs2_nonneg|]. left. apply Rinv_0_lt_compat, HZ. }
    assert (Sq : rsum (words d n) q = 1%R).
    { unfold q, Rdiv. rewrite rsum_mul. apply Rinv_r. lra. }
    assert (Hdec : (exists b, b < batch /\ get T [b] = XNInf) \/ forall b, b < batch -> (0 < q (row_letters ix n b))%R /\ get T [b] = XFin (ln (q (row_letters ix n b)))).
    { clear -H'. induction batch as [|k IH]; [right; intros; lia|].
      destruct (H' k ltac:(lia)) as [[Hp Hk]|[Hp Hk]]; [|left; exists k; split; [lia|exact Hk]].
      destruct IH as [(b & Hb & Hb')|IH]; [intros; apply H'; lia|left; exists b; split; [lia|exact Hb']|].
      right. intros b Hb. destruct (Nat.eq_dec b k) as [->|Hne]; [split; assumption|]. apply IH. lia. }
    destruct Hdec as [(b & Hb & Hinf)|Hall].
    - left. split; [|exists b; split; assumption].
      assert (Hor : forall b, b < batch -> get T [b] = XNInf \/ exists r, get T [b] = XFin r).
      { intros b' Hb'. destruct (H' b' Hb') as [[_ ->]|[_ ->]]; [right; eexists; reflexivity|left; reflexivity]. }
      rewrite (C15_loss_infinite K uniform m (TLong ix) slim par batch b T E HT Hor Hb Hinf) in El. congruence.
    - right. set (lp := fun b => ln (q (row_letters ix n b))).
      rewrite (C15_loss_mean K uniform m (TLong ix) slim par batch T lp E HT Hb0 (fun b Hb => proj2 (Hall b Hb))) in El.
      exists (- (bsum (S := R_ops) batch lp / INR batch))%R. split; [congruence|].
      unfold lp. rewrite (mean_rows (fun w => ln (q w))). unfold data_entropy.
      destruct (gibbs (words d n) freq q) as [G1 G2].
      + intros w _. apply frequency_nonneg, Hb0.
      + intros w _. apply Hq.
      + intros w _ Hw. apply frequency_pos_row in Hw as (b & Hb & <-). apply Hall, Hb.
      + apply frequency_sum.
      + exact Sq.
      + split; [lra|]. split.
        * intros Ev b Hb. destruct (Hall b Hb) as [Hp ->]. cbn [prob_of]. rewrite (exp_ln _ Hp).
          apply (proj1 G2); [lra|apply (row_in_words K ix batch n d b Hx Hb)|apply frequency_row, Hb].
        * intros Ev. f_equal. apply (proj2 G2). intros w _ Hw. apply frequency_pos_row in Hw as (b & Hb & <-).
          rewrite <- (Ev b Hb). destruct (Hall b Hb) as [Hp ->]. cbn [prob_of]. symmetry. apply exp_ln, Hp.
  Qed.

  (** ** The bound is attained by a model whose bond dimension is the number of rows *)
  Definition row_weight (w : list nat) : R := (sqrt (freq w) / INR (occurrences ix batch n w))%R.
  Definition memory_core : tensor K := mkT [n; d; batch; batch] (fun i =>
    match i with
    | [t; k; p; q] => if (p =? q) && (Z.to_nat (get ix [p; t]) =? k) then if t =? 0 then nofR K (row_weight (row_letters ix n p)) else s1 else s0
    | _ => s0 end).
  Definition memory_model : pmps K := mkP K memory_core (tconst [2; batch] s1) None None.
  Notation lsite := (letter_site memory_core false None).
  Lemma memory_entry t k p q : lsite t k p q = if p =? q then lsite t k p p else s0.
  Proof. unfold letter_site, entry, memory_core. cbn [get bias_at]. rewrite (Nat.eqb_refl p). destruct (p =? q) eqn:E; [|cbn [andb]; ring]. cbn [andb]. apply Nat.eqb_eq in E. subst q. reflexivity. Qed.
  Lemma memory_chain w : forall s p q, p < batch -> q < batch ->
    chain (sites batch lsite s w) p q = if p =? q then chain (sites batch lsite s w) p p else s0.
  Proof.
    induction w as [|k w IH]; intros s p q Hp Hq; cbn [sites].
    - cbn [chain]. unfold delta. destruct (p =? q); [rewrite Nat.eqb_refl|]; reflexivity.
    - rewrite chain_cons. destruct (p =? q) eqn:E; [apply Nat.eqb_eq in E as ->; reflexivity|].
      unfold mmul. apply bsum_zero. intros r Hr. rewrite memory_entry. destruct (p =? r) eqn:E2; [|ring].
      apply Nat.eqb_eq in E2. subst r. rewrite (IH (S s) p q Hp Hq), E. ring.
  Qed.
  Lemma memory_step s k w p : p < batch -> chain (sites batch lsite s (k :: w)) p p = smul (lsite s k p p) (chain (sites batch lsite (S s) w) p p).
  Proof.
    intros Hp. cbn [sites]. rewrite chain_cons. unfold mmul.
    rewrite <- (bsum_delta K batch p (fun r => smul (lsite s k p p) (chain (sites batch lsite (S s) w) r p)) Hp).
    apply bsum_ext. intros r Hr. rewrite memory_entry. rewrite Nat.eqb_sym. destruct (r =? p) eqn:E; [apply Nat.eqb_eq in E; subst r|]; ring.
  Qed.
  Lemma memory_tail w : forall s p, 0 < s -> p < batch -> s + List.length w = n ->
    chain (sites batch lsite s w) p p = if weq (map (fun t => Z.to_nat (get ix [p; t])) (seq s (List.length w))) w then s1 else s0.
  Proof.
    induction w as [|k w IH]; intros s p Hs Hp Hl.
    - cbn. unfold delta. rewrite Nat.eqb_refl. reflexivity.
    - rewrite memory_step by exact Hp. cbn [List.length] in Hl. rewrite (IH (S s) p ltac:(lia) Hp ltac:(lia)).
      cbn [List.length seq map]. unfold letter_site, entry, memory_core. cbn [get bias_at]. rewrite Nat.eqb_refl. cbn [andb].
      replace (s =? 0) with false by (symmetry; apply Nat.eqb_neq; lia).
      destruct (Z.to_nat (get ix [p; s]) =? k) eqn:E.
      + apply Nat.eqb_eq in E. rewrite E.
        destruct (weq _ w) as [E1|N1]; destruct (weq (k :: _) _) as [E2|N2]; try ring.
        * exfalso. apply N2. f_equal. exact E1.
        * exfalso. apply N1. injection E2. auto.
      + apply Nat.eqb_neq in E. destruct (weq (_ :: _) _) as [E2|N2]; [|ring]. exfalso. apply E. injection E2. auto.
  Qed.
  Lemma memory_word w p : 0 < n -> p < batch -> List.length w = n ->
    chain (sites batch lsite 0 w) p p = if weq (row_letters ix n p) w then nofR K (row_weight (row_letters ix n p)) else s0.
  Proof.
    intros Hn Hp Hl. destruct w as [|k w]; [cbn in Hl; lia|]. rewrite memory_step by exact Hp. cbn [List.length] in Hl.
    rewrite (memory_tail w 1 p ltac:(lia) Hp ltac:(lia)).
    assert (Er : row_letters ix n p = Z.to_nat (get ix [p; 0]) :: map (fun t => Z.to_nat (get ix [p; t])) (seq 1 (List.length w))).
    { unfold row_letters. rewrite <- Hl. reflexivity. }
    unfold letter_site, entry, memory_core. cbn [get bias_at]. rewrite Nat.eqb_refl. cbn [andb Nat.eqb].
    set (c := row_weight (row_letters ix n p)). rewrite Er.
    destruct (Z.to_nat (get ix [p; 0]) =? k) eqn:E.
    - apply Nat.eqb_eq in E. rewrite E.
      destruct (weq _ w) as [E1|N1]; destruct (weq (k :: _) _) as [E2|N2]; try ring.
      + exfalso. apply N2. f_equal. exact E1.
      + exfalso. apply N1. injection E2. auto.
    - apply Nat.eqb_neq in E. destruct (weq (_ :: _) _) as [E2|N2]; [|ring]. exfalso. apply E. injection E2. auto.
  Qed.
  (** the amplitude of a word is the square root of its frequency *)
  Lemma memory_amp w : 0 < n -> List.length w = n ->
    amplitude batch (edge_at (pm_edge K memory_model) 0) (edge_at (pm_edge K memory_model) 1) lsite w = nofR K (sqrt (freq w)).
  Proof.
    intros Hn Hl. unfold amplitude, sandwich.
    transitivity (bsum batch (fun p => nofR K (if weq (row_letters ix n p) w then row_weight w else 0%R))).
    { apply bsum_ext. intros p Hp.
      rewrite <- (bsum_delta K batch p (fun _ => nofR K (if weq (row_letters ix n p) w then row_weight w else 0%R)) Hp).
      apply bsum_ext. intros q Hq. cbn [edge_at pm_edge memory_model tconst get]. rewrite (memory_chain w 0 p q Hp Hq). rewrite Nat.eqb_sym.
      destruct (q =? p); [|ring]. rewrite (memory_word w p Hn Hp Hl).
      destruct (weq (row_letters ix n p) w) as [->|_]; rewrite ?nof_0; ring. }
    rewrite <- nofR_sum. f_equal.
    transitivity (rsum (rows_of ix batch n) (fun r => if weq r w then row_weight w else 0%R)).
    { unfold rows_of. rewrite (lsum_map R_cring). symmetry. apply (lsum_seq R_cring). }
    assert (Ec : forall l, rsum l (fun r => if weq r w then row_weight w else 0%R) = (INR (count_occ weq l w) * row_weight w)%R).
    { induction l as [|r l IH]; [cbn; ring|]. rewrite rsum_cons, IH. cbn [count_occ].
      destruct (weq r w); [rewrite S_INR|]; rring. }
    rewrite Ec. unfold row_weight, frequency. fold (occurrences ix batch n w).
    destruct (occurrences ix batch n w) as [|k] eqn:Eo.
    - cbn [INR]. unfold Rdiv. rewrite !Rmult_0_l, sqrt_0. reflexivity.
    - match goal with |- ?x = ?y => change (@eq R x y) end; field. apply not_0_INR. lia.
  Qed.
  Theorem C105_attained : 0 < n -> 0 < d ->
    exists m : pmps K, shapes_fixed K m n d batch /\ pm_emb K m = None /\ pm_bias K m = None /\
      forall slim par, snd (loss_fixed K m (TLong ix) slim par) = Ok (XFin (data_entropy ix batch n d)).
  Proof.
    intros Hn Hd. exists memory_model.
    assert (Hsh : shapes_fixed K memory_model n d batch) by (repeat split; assumption).
    split; [exact Hsh|]. split; [reflexivity|]. split; [reflexivity|]. intros slim par.
    assert (Hlen : forall b, List.length (row_letters ix n b) = n) by (intros b; unfold row_letters; rewrite map_length; apply seq_length).
    assert (Hpsi : forall b, psi K false memory_model n d batch (TLong ix) b = nofR K (sqrt (freq (row_letters ix n b)))).
    { intros b. unfold psi, row_amp. exact (memory_amp (row_letters ix n b) Hn (Hlen b)). }
    assert (Habs : forall w, abs2 (K := K) (nofR K (sqrt (freq w))) = freq w).
    { intros w. unfold abs2. rewrite nabs_of, Rabs_pos_eq by apply sqrt_pos. apply sqrt_sqrt. apply frequency_nonneg, Hb0. }
    assert (HZ : Zfun K false memory_model n d batch = 1%R).
    { unfold Zfun, partition_fn. rewrite <- frequency_sum. apply rsum_ext. intros w Hw. rewrite <- (Habs w). f_equal.
      apply memory_amp; [exact Hn|]. apply (words_length _ _ _ Hw). }
    assert (Hnz : forall b, b < batch -> psi K false memory_model n d batch (TLong ix) b <> s0).
    { intros b Hb C. rewrite Hpsi in C. pose proof (Habs (row_letters ix n b)) as A. rewrite C, abs2_s0 in A. pose proof (frequency_row ix batch n b Hb). lra. }
    destruct (C08_forward_born K memory_model ix slim par batch n d batch Hsh eq_refl Hx Hb0 (fun _ => eq_refl) Hnz) as (T & E & HT & G).
    pose proof (C15_loss_mean K false memory_model (TLong ix) slim par batch T (fun b => ln (freq (row_letters ix n b))) E HT Hb0) as C.
    cbv beta iota in C. rewrite C; [rewrite entropy_rows; reflexivity|].
    intros b Hb. rewrite (G b Hb), HZ, Hpsi, Habs. f_equal. f_equal. unfold Rdiv. rewrite Rinv_1. ring.
  Qed.
End Gibbs.
(** *** a concrete case: the rows 01, 01, 10; entropy 2/3 ln (3/2) + 1/3 ln 3 *)
Definition gibbs_data : tensor Z := mkT [3; 2] (fun i => match i with [2; 0] => 1%Z | [2; _] => 0%Z | [_; 0] => 0%Z | _ => 1%Z end).
Lemma gibbs_data_wf : wf_input (K := R_num) (TLong gibbs_data) 3 2 2.
Proof. split; [reflexivity|]. intros b t Hb Ht. destruct b as [|[|[|b]]]; destruct t as [|[|t]]; cbn; lia. Qed.
Example C105_met : exists m : pmps R_num, shapes_of R_num false m 2 2 3 /\
  (forall slim par, snd (loss_fixed R_num m (TLong gibbs_data) slim par) = Ok (XFin (- (2 / 3 * ln (2 / 3) + 1 / 3 * ln (1 / 3))))).
Proof.
  destruct (C105_attained R_num gibbs_data 3 2 2 gibbs_data_wf ltac:(lia) ltac:(lia) ltac:(lia)) as (m & Hsh & _ & _ & H).
  exists m. split; [exact Hsh|]. intros slim par. rewrite H. f_equal. f_equal.
  assert (E : forall c, frequency gibbs_data 3 2 (row_letters gibbs_data 2 c) = (if c =? 2 then 1 / 3 else if c <? 2 then 2 / 3 else frequency gibbs_data 3 2 (row_letters gibbs_data 2 c))%R).
  { intros [|[|[|c]]]; try reflexivity; unfold frequency, occurrences; match goal with |- (INR ?k / _)%R = _ => let v := eval vm_compute in k in change k with v end; cbn -[Rdiv Rplus Rmult]; field. }
  rewrite (entropy_rows R_num gibbs_data 3 2 2 gibbs_data_wf) by lia. cbn [bsum].
  rewrite (E 0), (E 1), (E 2). cbn [Nat.eqb Nat.ltb Nat.leb].
  change (- ((0 + ln (2 / 3) + ln (2 / 3) + ln (1 / 3)) / INR 3) = - (2 / 3 * ln (2 / 3) + 1 / 3 * ln (1 / 3)))%R. cbn [INR]. field.
Qed.
Print Assumptions C105_entropy_bound.
Print Assumptions C105_attained.
