(** * P_Train: C92 and C93, the training and test loops of train_script.py. *)
From Coq Require Import Reals Lra Permutation FunctionalExtensionality.
From Verif Require Import Base Scalars Tensor Spec TorchMps TmSpec TrainScript TrainSpec LinAlg Utils2Proofs TmProofs TmFinal P_Mps P_Mps3 P_Mps4 P_MpsSym.

(** *** the batches *)
Lemma batch_loop_spec b l : forall acc, List.length acc < b ->
  exists rest, cuts b (acc ++ l) (batch_loop b acc l) rest.
Proof.
  induction l as [|i l IH]; intros acc Ha; cbn [batch_loop].
  - exists acc. rewrite app_nil_r. split; [reflexivity|]. split; [constructor|exact Ha].
  - destruct (Nat.eqb_spec (List.length (acc ++ [i])) b) as [E|E].
    + destruct (IH []) as (rest & H1 & H2 & H3); [cbn; lia|]. exists rest. split; [|split; [constructor; [exact E|exact H2]|exact H3]].
      cbn [List.concat]. rewrite <- app_assoc, <- H1, <- app_assoc. reflexivity.
    + rewrite app_length in E. cbn [List.length] in E. destruct (IH (acc ++ [i])) as (rest & H1 & H2); [rewrite app_length; cbn [List.length]; lia|].
      exists rest. rewrite <- app_assoc in H1. split; [exact H1|exact H2].
Qed.
Lemma concat_length {A} b (bs : list (list A)) : Forall (fun x => List.length x = b) bs -> List.length (List.concat bs) = List.length bs * b.
Proof. induction 1 as [|x bs Hx _ IH]; [reflexivity|]. cbn [List.concat]. rewrite app_length, IH, Hx. cbn. lia. Qed.
Lemma cuts_number b l bs rest : cuts b l bs rest -> List.length bs = List.length l / b.
Proof.
  intros (-> & Hb & Hr). rewrite app_length, (concat_length b bs Hb), Nat.add_comm, Nat.div_add by lia. rewrite (Nat.div_small _ _ Hr). reflexivity.
Qed.

(** *** the largest score *)
Lemma max_loop_ok (f : nat -> R) n : forall k p, p < k -> (forall o, o < k -> (f o <= f p)%R) -> (forall o, o < p -> (f o < f p)%R) ->
  first_max (k + n) f (max_loop (f p, p) k (map f (seq k n))).
Proof.
  induction n as [|n IH]; intros k p Hp H1 H2; cbn [seq map max_loop].
  - rewrite Nat.add_0_r. cbn [snd]. split; [exact Hp|]. split; assumption.
  - replace (k + S n) with (S k + n) by lia. cbn [fst]. destruct (Rlt_dec (f p) (f k)) as [L|L].
    + apply IH; [lia| |].
      * intros o Ho. destruct (Nat.eq_dec o k) as [->|Hok]; [lra|]. specialize (H1 o ltac:(lia)). lra.
      * intros o Ho. specialize (H1 o Ho). lra.
    + apply IH; [lia| |exact H2]. intros o Ho. destruct (Nat.eq_dec o k) as [->|Hok]; [lra|]. apply H1. lia.
Qed.
Lemma argmax_ok (f : nat -> R) n : 0 < n -> exists p, argmax (map f (seq 0 n)) = Ok p /\ first_max n f p.
Proof.
  intros Hn. destruct n as [|n]; [lia|]. cbn [seq map argmax]. eexists. split; [reflexivity|].
  apply (max_loop_ok f n 1 0); [lia| |lia]. intros o Ho. replace o with 0 by lia. lra.
Qed.
Lemma first_max_unique n f p q : first_max n f p -> first_max n f q -> p = q.
Proof.
  intros (Hp & Mp & Lp) (Hq & Mq & Lq). destruct (Nat.lt_trichotomy p q) as [H|[H|H]]; [|exact H|].
  - specialize (Lq p H). specialize (Mp q Hq). lra.
  - specialize (Lp q H). specialize (Mq p Hp). lra.
Qed.

(** *** counting *)
Lemma map_seq_shift {A} (f : nat -> A) n : map f (seq 1 n) = map (fun r => f (S r)) (seq 0 n).
Proof. rewrite <- seq_shift, map_map. reflexivity. Qed.
Lemma count_sum (P : nat -> Prop) (l : list nat) : forall t : nat -> bool, (forall r, r < List.length l -> (t r = true <-> P (nth r l 0))) ->
  count P l (fold_right plus 0 (map (fun r => if t r then 1 else 0) (seq 0 (List.length l)))).
Proof.
  induction l as [|i l IH]; intros t H; [constructor|]. cbn [List.length seq map fold_right]. rewrite map_seq_shift.
  assert (H' : count P l (fold_right plus 0 (map (fun r => if t (S r) then 1 else 0) (seq 0 (List.length l))))).
  { apply (IH (fun r => t (S r))). intros r Hr. apply (H (S r)). cbn. lia. }
  pose proof (H 0 ltac:(cbn; lia)) as H0. cbn [nth] in H0. destruct (t 0).
  - apply count_yes; [apply H0; reflexivity|exact H'].
  - apply count_no; [|exact H']. intros HP. apply H0 in HP. discriminate.
Qed.
Lemma count_le P l c : count P l c -> c <= List.length l.
Proof. induction 1; cbn; lia. Qed.
Lemma count_app P l1 : forall c1 l2 c2, count P l1 c1 -> count P l2 c2 -> count P (l1 ++ l2) (c1 + c2).
Proof. intros c1 l2 c2 H H2. induction H; cbn [app plus]; [exact H2| |]; constructor; assumption. Qed.
Lemma count_fun P l c c' : count P l c -> count P l c' -> c = c'.
Proof. intros H. revert c'. induction H; intros c' H'; inversion H'; subst; try contradiction; auto. Qed.
Lemma count_perm P l l' c : Permutation l l' -> count P l c -> count P l' c.
Proof.
  intros Hp. revert c. induction Hp; intros c H.
  - exact H.
  - inversion H; subst; constructor; auto.
  - inversion H as [|? ? c1 Hi H1|? ? c1 Hi H1]; subst; inversion H1 as [|? ? c2 Hj H2|? ? c2 Hj H2]; subst; repeat constructor; assumption.
  - auto.
Qed.
Lemma map_nth_seq {A} (f : nat -> A) (l : list nat) : map (fun r => f (nth r l 0)) (seq 0 (List.length l)) = map f l.
Proof. induction l as [|i l IH]; [reflexivity|]. cbn [List.length seq map nth]. rewrite map_seq_shift. cbn [nth]. rewrite IH. reflexivity. Qed.
Lemma rmap_all {A B} (f : A -> res B) (g : A -> B) l : (forall x, In x l -> f x = Ok (g x)) -> rmap f l = Ok (map g l).
Proof.
  induction l as [|x l IH]; intros H; [reflexivity|]. cbn [rmap map]. rewrite H by (left; reflexivity). cbn [rbind].
  rewrite IH by (intros; apply H; right; assumption). reflexivity.
Qed.

Section P.
  Variables (pix : nat -> nat -> R) (lab : nat -> nat).
  Variables (N O D b : nat) (per par ub : bool) (label : option Z) (path : mpath) (std : R) (rnd : nat -> list nat -> R).
  Variable m0 : mps R_cring.
  (** the model is one that works (C34): default feature map, a label site that is not 0, no region
      of exactly one site *)
  Definition working : Prop :=
    mps_init R_cring N O D 2 per par label path std ub rnd = Ok m0 /\ no_path path /\
    m_label m0 <> 0 /\ m_label m0 <> 1 /\ N - m_label m0 <> 1 /\ (per = false -> 0 < D) /\ 0 < O.
  (** [m] is the model after some training *)
  Definition later (m : mps R_cring) : Prop := trained m0 m /\ m_fmap m = None.
  Variable optst : Type.
  Variable opt : optst -> mps R_cring -> tensor R_cring -> list nat -> optst * mps R_cring.
  (** the optimiser only gives the parameters new values *)
  Definition optimises : Prop := forall os m x l, later m -> later (snd (opt os m x l)).

  Lemma evaluate m g idx : working -> later m -> List.length idx = b ->
    exists inputs scores, images pix N b idx = Ok inputs /\ shows pix N b idx inputs /\
      mps_forward R_cring m inputs g = (Ok scores, Some b) /\ shp scores = [b; O] /\
      forall r o, r < b -> o < O -> get scores [r; o] = score pix N D per m (nth r idx 0) o.
  Proof.
    intros (Hi & Hp & L0 & L1 & L2 & HD & HO) (Ht & Hf) Hb. unfold images. rewrite Hb, Nat.eqb_refl.
    eexists. exists (fst (match mps_forward R_cring m (mkT [b; N] (fun i => pix (nth (nth 0 i 0) idx 0) (nth 1 i 0))) g with (Ok s, g') => (s, g') | (_, g') => (tconst [] s0, g') end)).
    split; [reflexivity|]. split; [split; [reflexivity|]; intros; reflexivity|].
    set (x := mkT [b; N] _) in *.
    destruct (C36_default R_cring N O D 2 per par ub label path std rnd m0 m Hi Ht Hp x b g Hf eq_refl eq_refl) as (e & He & Ee).
    rewrite Ee. assert (El : m_label m = m_label m0) by (destruct Ht as [_ ->]; reflexivity).
    pose proof (init_built R_cring _ _ _ _ _ _ _ _ _ _ _ _ _ Hi Ht) as Hbu. pose proof (b_le R_cring _ _ _ _ _ _ _ _ _ _ Hbu) as Hle.
    pose proof (b_lab R_cring _ _ _ _ _ _ _ _ _ _ Hbu) as Hlab.
    assert (Ex : expected N (m_label m) D per g b = Rows b).
    { unfold expected, broadcast. rewrite El. destruct (Nat.ltb_spec 0 (m_label m0)); [|lia].
      destruct (Nat.eqb_spec (m_label m0) 1); [lia|]. destruct (Nat.eqb_spec (N - m_label m0) 1); [lia|]. cbn [orb].
      replace (negb per && (D =? 0))%bool with false by (destruct per; [reflexivity|]; cbn; destruct (Nat.eqb_spec D 0); [specialize (HD eq_refl); lia|reflexivity]).
      rewrite Nat.eqb_refl. destruct (N =? 0); reflexivity. }
    destruct (returns R_cring _ _ _ _ _ _ _ _ _ _ _ _ _ e b g b Hi Ht Hp (proj1 He) Ex) as (y & Ey & Hy & Gy).
    rewrite Ey. cbn [fst]. split; [reflexivity|]. split; [exact Hy|]. intros r o Hr Ho. rewrite Gy by assumption.
    assert (Es : source b r = r) by (unfold source; destruct (Nat.eqb_spec b 1); lia). rewrite Es.
    destruct He as [_ He]. change (score pix N D per m (nth r idx 0) o) with
      (value R_cring per N (m_label m) D 2 (weights_of m) (fun s k => if (k =? 0)%nat then pix (nth r idx 0%nat) s else (1 - pix (nth r idx 0%nat) s)%R) o).
    apply TmFinal.value_ext; [rewrite Hlab; exact Hle|]. intros s k Hs Hk. rewrite He by assumption. reflexivity.
  Qed.

  Lemma answers m idx (scores : tensor R_cring) : 0 < O -> List.length idx = b -> shp scores = [b; O] ->
    (forall r o, r < b -> o < O -> get scores [r; o] = score pix N D per m (nth r idx 0) o) ->
    exists ps c, preds scores = Ok ps /\ accuracy b ps (map lab idx) = (INR c / INR b)%R /\
      count (classifies pix lab N O D per m) idx c.
  Proof.
    intros HO Hb Hs Hg. unfold preds. rewrite Hs. cbn [nth].
    assert (Hrow : forall r, r < b -> row scores r = map (score pix N D per m (nth r idx 0)) (seq 0 O)).
    { intros r Hr. unfold row. rewrite Hs. cbn [nth]. apply map_ext_in. intros o Ho. apply in_seq in Ho. apply Hg; lia. }
    destruct (rmap_Forall2 (fun r => argmax (row scores r)) (fun r p => first_max O (score pix N D per m (nth r idx 0)) p) (seq 0 b)) as (ps & Eps & Hps).
    { intros r Hr. apply in_seq in Hr. rewrite Hrow by lia. destruct (argmax_ok (score pix N D per m (nth r idx 0)) O HO) as (p & Ep & Hp). eauto. }
    destruct (Forall2_seq _ _ _ _ 0 Hps) as [Lp Gp].
    exists ps, (fold_right plus 0 (map (fun r => if nth r ps 0 =? nth r (map lab idx) 0 then 1 else 0) (seq 0 (List.length idx)))).
    split; [exact Eps|]. split; [unfold accuracy; rewrite map_length; reflexivity|].
    apply count_sum. intros r Hr. rewrite Nat.eqb_eq, (nth_indep (map lab idx) 0 (lab 0)) by (rewrite map_length; exact Hr). rewrite map_nth.
    specialize (Gp r ltac:(lia)). unfold classifies. split.
    - intros <-. exact Gp.
    - intros Hm. exact (first_max_unique _ _ _ _ Gp Hm).
  Qed.
  Lemma losses m idx (scores : tensor R_cring) : List.length idx = b -> shp scores = [b; O] ->
    (forall r o, r < b -> o < O -> get scores [r; o] = score pix N D per m (nth r idx 0) o) ->
    (forall i, In i idx -> lab i < O) ->
    loss_fun scores (map lab idx) = Ok (mean_loss pix lab N O D per m idx).
  Proof.
    intros Hb Hs Hg Hl. unfold loss_fun. rewrite Hs. cbn [nth].
    rewrite (rmap_all _ (fun r => cross_entropy pix lab N O D per m (nth r idx 0))).
    - cbn [rbind]. rewrite <- Hb, map_nth_seq. unfold mean_loss. rewrite map_length. reflexivity.
    - intros r Hr. apply in_seq in Hr. cbv zeta. rewrite (nth_indep (map lab idx) 0 (lab 0)) by (rewrite map_length; lia). rewrite map_nth.
      specialize (Hl (nth r idx 0) ltac:(apply nth_In; lia)). destruct (Nat.ltb_spec (lab (nth r idx 0)) O); [|lia].
      f_equal. unfold cross_entropy, row. rewrite Hs. cbn [nth]. f_equal.
      + f_equal. f_equal. rewrite map_map. apply map_ext_in. intros o Ho. apply in_seq in Ho. f_equal. apply Hg; lia.
      + apply Hg; lia.
  Qed.

  (** *** the loops *)
  Lemma train_loop bs : working -> optimises -> Forall (fun x => List.length x = b) bs -> 0 < b ->
    (forall i, In i (List.concat bs) -> lab i < O) ->
    forall os m g rl ra, later m -> exists os' m' loss hits,
      rfold (train_step pix lab N b optst opt) (os, m, g, rl, ra) bs =
        Ok (os', m', (match bs with [] => g | _ => Some b end), (rl + loss)%R, (ra + INR hits / INR b)%R) /\
      later m' /\ hits <= List.length bs * b /\
      pass pix lab N O D b per optst opt os m bs os' m' loss hits.
  Proof.
    intros Hw Ho Hbs Hb0. assert (HO : 0 < O) by (unfold working in Hw; tauto). induction Hbs as [|idx bs Hlen Hbs IH]; intros Hlab os m g rl ra Hm.
    - exists os, m, 0%R, 0. split; [|split; [exact Hm|split; [lia|constructor]]]. cbn [rfold]. cbn [INR]. f_equal. f_equal; [f_equal; lra|]. unfold Rdiv. lra.
    - destruct (evaluate m g idx Hw Hm Hlen) as (inputs & scores & Ei & Hsh & Ef & Hs & Hg).
      destruct (answers m idx scores HO Hlen Hs Hg) as (ps & c & Ep & Ea & Hc).
      pose proof (losses m idx scores Hlen Hs Hg ltac:(intros i Hi; apply Hlab; cbn [List.concat]; apply in_or_app; left; exact Hi)) as El.
      destruct (opt os m inputs (map lab idx)) as [os1 m1] eqn:Eo.
      assert (Hm1 : later m1) by (specialize (Ho os m inputs (map lab idx) Hm); rewrite Eo in Ho; exact Ho).
      destruct (IH ltac:(intros i Hi; apply Hlab; cbn [List.concat]; apply in_or_app; right; exact Hi) os1 m1 (Some b)
        (rl + mean_loss pix lab N O D per m idx)%R (ra + INR c / INR b)%R Hm1) as (os' & m' & loss & hits & E & Hm' & Hh & Hpass).
      exists os', m', (mean_loss pix lab N O D per m idx + loss)%R, (c + hits). split; [|split; [exact Hm'|split]].
      + assert (Estep : train_step pix lab N b optst opt (os, m, g, rl, ra) idx =
          Ok (os1, m1, Some b, (rl + mean_loss pix lab N O D per m idx)%R, (ra + INR c / INR b)%R)).
        { unfold train_step. rewrite Ei. cbn [rbind]. rewrite Ef. cbn [rbind]. rewrite Ep. cbn [rbind]. rewrite El. cbn [rbind].
          rewrite Eo, Ea. reflexivity. }
        cbn [rfold]. rewrite Estep. cbn [rbind]. rewrite E. f_equal.
        replace (match bs with [] => Some b | _ => Some b end) with (Some b) by (destruct bs; reflexivity).
        rewrite plus_INR. f_equal; [f_equal; lra|]. unfold Rdiv. lra.
      + apply count_le in Hc. cbn [List.length]. lia.
      + econstructor; eassumption.
  Qed.
  Lemma test_loop bs m : working -> later m -> Forall (fun x => List.length x = b) bs ->
    forall g ra, exists hits,
      rfold (test_step pix lab N b m) (g, ra) bs = Ok ((match bs with [] => g | _ => Some b end), (ra + INR hits / INR b)%R) /\
      count (classifies pix lab N O D per m) (List.concat bs) hits.
  Proof.
    intros Hw Hm Hbs. assert (HO : 0 < O) by (unfold working in Hw; tauto). induction Hbs as [|idx bs Hlen Hbs IH]; intros g ra.
    - exists 0. split; [|constructor]. cbn [rfold INR]. f_equal. f_equal. unfold Rdiv. lra.
    - destruct (evaluate m g idx Hw Hm Hlen) as (inputs & scores & Ei & Hsh & Ef & Hs & Hg).
      destruct (answers m idx scores HO Hlen Hs Hg) as (ps & c & Ep & Ea & Hc).
      destruct (IH (Some b) (ra + INR c / INR b)%R) as (hits & E & Hh). exists (c + hits). split.
      + assert (Estep : test_step pix lab N b m (g, ra) idx = Ok (Some b, (ra + INR c / INR b)%R)).
        { unfold test_step. rewrite Ei. cbn [rbind]. rewrite Ef. cbn [rbind]. rewrite Ep. cbn [rbind]. rewrite Ea. reflexivity. }
        cbn [rfold]. rewrite Estep. cbn [rbind]. rewrite E. f_equal.
        replace (match bs with [] => Some b | _ => Some b end) with (Some b) by (destruct bs; reflexivity).
        rewrite plus_INR. f_equal. unfold Rdiv. lra.
      + cbn [List.concat]. apply count_app; assumption.
  Qed.
  Lemma order_cut order n : 0 < b -> Permutation order (seq 0 n) ->
    exists bs rest, loader b order = Ok bs /\ cuts b order bs rest /\ List.length bs = n / b.
  Proof.
    intros Hb Hp. unfold loader. destruct (Nat.eqb_spec b 0); [lia|]. destruct (batch_loop_spec b order []) as (rest & H); [cbn; lia|].
    exists (batch_loop b [] order), rest. split; [reflexivity|]. split; [exact H|].
    rewrite (cuts_number _ _ _ _ H). apply Permutation_length in Hp. rewrite seq_length in Hp. cbn [app]. rewrite Hp. reflexivity.
  Qed.
  Lemma average_ok total n : 0 < b -> average b total n = if n <? b then Err ZeroDivisionError else Ok (total / INR (n / b))%R.
  Proof.
    intros Hb. unfold average. destruct (Nat.ltb_spec n b) as [H|H].
    - rewrite (Nat.div_small _ _ H). reflexivity.
    - assert (0 < n / b) by (apply Nat.div_str_pos; lia). destruct (Nat.eqb_spec (n / b) 0); [lia|reflexivity].
  Qed.

  (** C92: one training epoch over [ntrain] images in any order.  It raises ZeroDivisionError if
      there are fewer images than the batch size, and otherwise: the order is cut into
      ntrain // b full batches, the model makes one update per batch, the printed accuracy is the
      number of images whose label has the largest score, divided by the number of images used,
      and the printed loss is the mean over the batches of the mean cross entropy, every batch
      being evaluated before its own update. *)
  Theorem C92_train_epoch (ntrain : nat) (order : list nat) (os : optst) (m : mps R_cring) (g : option nat) :
    working -> optimises -> later m -> 0 < b -> Permutation order (seq 0 ntrain) -> (forall i, i < ntrain -> lab i < O) ->
    if ntrain <? b then train_epoch pix lab N b optst opt ntrain order os m g = Err ZeroDivisionError
    else exists bs rest os' m' loss hits,
      cuts b order bs rest /\ List.length bs = ntrain / b /\
      pass pix lab N O D b per optst opt os m bs os' m' loss hits /\ later m' /\ hits <= ntrain / b * b /\
      train_epoch pix lab N b optst opt ntrain order os m g =
        Ok (os', m', Some b, (loss / INR (ntrain / b))%R, (INR hits / INR (ntrain / b * b))%R).
  Proof.
    intros Hw Ho Hm Hb Hp Hlab. destruct (order_cut order ntrain Hb Hp) as (bs & rest & El & Hc & Hn).
    pose proof Hc as (Eo & Hbs & Hr). unfold train_epoch. rewrite El. cbn [rbind].
    destruct (train_loop bs Hw Ho Hbs Hb) with (os := os) (m := m) (g := g) (rl := 0%R) (ra := 0%R) as (os' & m' & loss & hits & E & Hm' & Hh & Hpass); [|exact Hm|].
    { intros i Hi. apply Hlab. assert (Hin : In i order) by (rewrite Eo; apply in_or_app; left; exact Hi).
      apply (Permutation_in i Hp) in Hin. apply in_seq in Hin. lia. }
    rewrite E. cbn [rbind]. rewrite !average_ok by exact Hb. destruct (Nat.ltb_spec ntrain b) as [H|H]; [reflexivity|]. cbn [rbind].
    exists bs, rest, os', m', loss, hits. split; [exact Hc|]. split; [exact Hn|]. split; [exact Hpass|]. split; [exact Hm'|].
    rewrite <- Hn. split; [exact Hh|]. assert (Hpos : 0 < List.length bs) by (rewrite Hn; apply Nat.div_str_pos; lia).
    destruct bs as [|b1 bs]; [cbn in Hpos; lia|]. set (nb := List.length (b1 :: bs)) in *.
    rewrite mult_INR. f_equal. assert (0 < INR nb)%R by (apply lt_0_INR; exact Hpos). assert (0 < INR b)%R by (apply lt_0_INR; exact Hb).
    f_equal; [f_equal|]; field; lra.
  Qed.

  (** C93: the test accuracy is the exact fraction of correctly classified images among those used,
      the parameters are not changed, and if the batch size divides the number of test images the
      number does not depend on the order in which the sampler draws them. *)
  Theorem C93_test_epoch (ntest : nat) (order : list nat) (m : mps R_cring) (g : option nat) :
    working -> later m -> 0 < b -> Permutation order (seq 0 ntest) ->
    if ntest <? b then test_epoch pix lab N b ntest order m g = Err ZeroDivisionError
    else exists hits,
      count (classifies pix lab N O D per m) (firstn (ntest / b * b) order) hits /\
      test_epoch pix lab N b ntest order m g = Ok (Some b, (INR hits / INR (ntest / b * b))%R).
  Proof.
    intros Hw Hm Hb Hp. destruct (order_cut order ntest Hb Hp) as (bs & rest & El & Hc & Hn).
    pose proof Hc as (Eo & Hbs & Hr). unfold test_epoch. rewrite El. cbn [rbind].
    destruct (test_loop bs m Hw Hm Hbs g 0%R) as (hits & E & Hh). rewrite E. cbn [rbind fst snd]. rewrite !average_ok by exact Hb.
    destruct (Nat.ltb_spec ntest b) as [H|H]; [reflexivity|]. cbn [rbind]. exists hits.
    assert (Ef : firstn (ntest / b * b) order = List.concat bs).
    { rewrite Eo, <- Hn, <- (concat_length b bs Hbs), firstn_app, Nat.sub_diag, firstn_all, firstn_O, app_nil_r. reflexivity. }
    rewrite Ef. split; [exact Hh|]. rewrite <- Hn. assert (Hpos : 0 < List.length bs) by (rewrite Hn; apply Nat.div_str_pos; lia).
    destruct bs as [|b1 bs]; [cbn in Hpos; lia|]. set (nb := List.length (b1 :: bs)) in *.
    rewrite mult_INR. f_equal. assert (0 < INR nb)%R by (apply lt_0_INR; exact Hpos). assert (0 < INR b)%R by (apply lt_0_INR; exact Hb).
    f_equal; field; lra.
  Qed.
  Theorem C93_order_irrelevant (k : nat) (m : mps R_cring) :
    working -> later m -> 0 < b -> 0 < k ->
    exists hits, count (classifies pix lab N O D per m) (seq 0 (k * b)) hits /\
      forall order g, Permutation order (seq 0 (k * b)) ->
        test_epoch pix lab N b (k * b) order m g = Ok (Some b, (INR hits / INR (k * b))%R).
  Proof.
    intros Hw Hm Hb Hk.
    assert (Hlt : k * b <? b = false) by (apply Nat.ltb_ge; nia). assert (Hdiv : k * b / b = k) by (apply Nat.div_mul; lia).
    pose proof (C93_test_epoch (k * b) (seq 0 (k * b)) m None Hw Hm Hb (Permutation_refl _)) as H0.
    rewrite Hlt, Hdiv in H0. destruct H0 as (hits & Hc & _). rewrite firstn_all2 in Hc by (rewrite seq_length; lia).
    exists hits. split; [exact Hc|]. intros order g Hp.
    pose proof (C93_test_epoch (k * b) order m g Hw Hm Hb Hp) as H. rewrite Hlt, Hdiv in H. destruct H as (h & Hh & E).
    rewrite firstn_all2 in Hh by (rewrite (Permutation_length Hp), seq_length; lia).
    apply (count_perm _ _ _ _ Hp) in Hh. rewrite (count_fun _ _ _ _ Hc Hh). exact E.
  Qed.

  (** C92: the whole script.  With at least one full batch of training and of test images it never
      raises, prints one line per epoch, and all printed accuracies lie between 0 and 1; with fewer
      images than the batch size it raises ZeroDivisionError in the first epoch. *)
  Theorem C92_script (ntrain ntest : nat) (orders : list (list nat * list nat)) (os : optst) :
    working -> trained m0 m0 -> optimises -> 0 < b ->
    Forall (fun o => Permutation (fst o) (seq 0 ntrain) /\ Permutation (snd o) (seq 0 ntest)) orders ->
    (forall i, i < ntrain -> lab i < O) ->
    (b <= ntrain -> b <= ntest -> exists m lines,
       epochs pix lab N b optst opt ntrain ntest orders os m0 None = Ok (m, lines) /\ trained m0 m /\
       List.length lines = List.length orders /\
       Forall (fun l => (0 <= snd (fst l) <= 1)%R /\ (0 <= snd l <= 1)%R) lines) /\
    (ntrain < b \/ ntest < b -> orders <> [] ->
       epochs pix lab N b optst opt ntrain ntest orders os m0 None = Err ZeroDivisionError).
  Proof.
    intros Hw Ht Ho Hb Hord Hlab.
    assert (Hfrac : forall h k, h <= k -> 0 < k -> (0 <= INR h / INR k <= 1)%R).
    { intros h k Hhk Hk. apply le_INR in Hhk. pose proof (pos_INR h). assert (0 < INR k)%R by (apply lt_0_INR; exact Hk).
      split; [apply Rmult_le_pos; [assumption|left; apply Rinv_0_lt_compat; assumption]|].
      apply (Rmult_le_reg_r (INR k)); [assumption|]. unfold Rdiv. rewrite Rmult_assoc, Rinv_l by lra. lra. }
    assert (Hm0 : later m0).
    { split; [exact Ht|]. destruct Hw as (Hi & _). unfold mps_init in Hi. apply rbind_inv in Hi as (x1 & _ & Hi). apply rbind_inv in Hi as (x2 & _ & Hi).
      apply rbind_inv in Hi as (x3 & _ & Hi). apply rbind_inv in Hi as (x4 & _ & Hi). injection Hi as <-. reflexivity. }
    split.
    - intros Htr Hte. revert os. assert (HG : forall os m g, later m -> exists m' lines,
        epochs pix lab N b optst opt ntrain ntest orders os m g = Ok (m', lines) /\ later m' /\
        List.length lines = List.length orders /\ Forall (fun l => (0 <= snd (fst l) <= 1)%R /\ (0 <= snd l <= 1)%R) lines).
      { induction Hord as [|[tr te] orders [Ptr Pte] Hord IH]; intros os m g Hm.
        - exists m, []. cbn [epochs]. auto.
        - cbn [fst snd] in Ptr, Pte. cbn [epochs].
          pose proof (C92_train_epoch ntrain tr os m g Hw Ho Hm Hb Ptr Hlab) as H1. destruct (Nat.ltb_spec ntrain b); [lia|].
          destruct H1 as (bs & rest & os1 & m1 & loss & hits & _ & _ & _ & Hm1 & Hh & E1). rewrite E1. cbn [rbind].
          pose proof (C93_test_epoch ntest te m1 (Some b) Hw Hm1 Hb Pte) as H2. destruct (Nat.ltb_spec ntest b); [lia|].
          destruct H2 as (h2 & Hc2 & E2). rewrite E2. cbn [rbind fst snd].
          destruct (IH os1 m1 (Some b) Hm1) as (m' & lines & E3 & Hm' & Hl & HF). rewrite E3. cbn [rbind fst snd].
          eexists. eexists. split; [reflexivity|]. split; [exact Hm'|]. split; [cbn [List.length]; rewrite Hl; reflexivity|].
          constructor; [|exact HF]. cbn [fst snd]. assert (0 < ntrain / b) by (apply Nat.div_str_pos; lia). assert (0 < ntest / b) by (apply Nat.div_str_pos; lia).
          split; apply Hfrac; try assumption; try nia.
          apply count_le in Hc2. rewrite firstn_length in Hc2. lia. }
      intros os. destruct (HG os m0 None Hm0) as (m & lines & E & [Hm _] & H). exists m, lines. auto.
    - intros Hsmall Hne. destruct orders as [|[tr te] orders]; [congruence|]. clear Hne. inversion Hord as [|? ? [Ptr Pte] _]; subst. cbn [fst snd] in *.
      cbn [epochs]. pose proof (C92_train_epoch ntrain tr os m0 None Hw Ho Hm0 Hb Ptr Hlab) as H1. destruct (Nat.ltb_spec ntrain b) as [H|H].
      + rewrite H1. reflexivity.
      + destruct H1 as (bs & rest & os1 & m1 & loss & hits & _ & _ & _ & Hm1 & Hh & E1). rewrite E1. cbn [rbind].
        pose proof (C93_test_epoch ntest te m1 (Some b) Hw Hm1 Hb Pte) as H2. destruct (Nat.ltb_spec ntest b); [|lia]. rewrite H2. reflexivity.
  Qed.
End P.

(** The constants of train_script.py: 784 pixels, 10 classes, bond dimension 20, batches of 100,
    2000 training and 1000 test images, 20 epochs; open or periodic boundary.  For every data set
    with labels below 10, every optimiser and all sampler orders, the script runs to its end. *)
Theorem C92_constants (per : bool) (pix : nat -> nat -> R) (lab : nat -> nat) (std : R) (rnd : nat -> list nat -> R)
    (optst : Type) (opt : optst -> mps R_cring -> tensor R_cring -> list nat -> optst * mps R_cring) (os : optst)
    (orders : list (list nat * list nat)) :
  (forall i, lab i < 10) ->
  (forall os m x l m0, trained m0 m -> m_fmap m = None -> trained m0 (snd (opt os m x l)) /\ m_fmap (snd (opt os m x l)) = None) ->
  Forall (fun o => Permutation (fst o) (seq 0 2000) /\ Permutation (snd o) (seq 0 1000)) orders -> List.length orders = 20 ->
  exists m0 m lines, mps_init R_cring 784 10 20 2 per false None PNone std false rnd = Ok m0 /\
    epochs pix lab 784 100 optst opt 2000 1000 orders os m0 None = Ok (m, lines) /\ List.length lines = 20 /\
    Forall (fun l => (0 <= snd (fst l) <= 1)%R /\ (0 <= snd l <= 1)%R) lines.
Proof.
  intros Hlab Hopt Hord Hlen.
  destruct (C34_constructor R_cring 784 10 20 2 per false None PNone std false rnd Logic.I ltac:(left; left; reflexivity)) as (m0 & Hi & Ht & Hl).
  assert (El : m_label m0 = 392) by (rewrite Hl; reflexivity).
  destruct (C92_script pix lab 784 10 20 100 per false false None PNone std rnd m0 optst opt 2000 1000 orders os) as [H _]; try assumption; try lia.
  - unfold working. rewrite El. repeat split; try lia; [exact Hi|left; reflexivity].
  - intros os1 m x l (Hm & Hf). apply Hopt; assumption.
  - intros i _. apply Hlab.
  - destruct H as (m & lines & E & _ & Hn & HF); [lia|lia|]. exists m0, m, lines. split; [exact Hi|]. split; [exact E|]. split; [lia|exact HF].
Qed.
(** the hypotheses are met: labels i mod 10, an optimiser that does nothing, images in reverse order *)
Example C92_hyps_met : exists m0 m lines, mps_init R_cring 784 10 20 2 false false None PNone 0%R false (fun _ _ => 0%R) = Ok m0 /\
  epochs (fun i s => INR (i + s)) (fun i => i mod 10) 784 100 unit (fun os m _ _ => (os, m)) 2000 1000
    (repeat (rev (seq 0 2000), rev (seq 0 1000)) 20) tt m0 None = Ok (m, lines) /\ List.length lines = 20 /\
  Forall (fun l => (0 <= snd (fst l) <= 1)%R /\ (0 <= snd l <= 1)%R) lines.
Proof.
  apply C92_constants.
  - intros i. apply Nat.mod_upper_bound. lia.
  - intros os m x l m0 H1 H2. auto.
  - apply Forall_forall. intros o Ho. apply repeat_spec in Ho. subst o. split; apply Permutation_sym, Permutation_rev.
  - apply repeat_length.
Qed.
Print Assumptions C92_train_epoch.
Print Assumptions C92_script.
Print Assumptions C92_constants.
Print Assumptions C93_test_epoch.
Print Assumptions C93_order_irrelevant.
