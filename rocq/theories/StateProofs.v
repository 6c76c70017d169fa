(** * StateProofs: loading a dictionary *)
From Coq Require Import Reals.
From Verif Require Import Base Scalars Tensor Utils TorchMps Adaptive StateDict.

Lemma part_eqb_true a b : part_eqb a b = true <-> a = b.
Proof.
  destruct a, b; cbn [part_eqb]; (split; [intros H|intros H; try discriminate]).
  - f_equal. apply String.eqb_eq. exact H.
  - injection H as ->. apply String.eqb_refl.
  - discriminate.
  - discriminate.
  - f_equal. apply Nat.eqb_eq. exact H.
  - injection H as ->. apply Nat.eqb_refl.
Qed.
Lemma key_eqb_true a : forall b, key_eqb a b = true <-> a = b.
Proof.
  induction a as [|x a IH]; intros [|y b]; cbn [key_eqb]; (split; [intros H|intros H; try discriminate]); try discriminate; try reflexivity.
  - apply andb_prop in H as [H1 H2]. apply part_eqb_true in H1 as ->. apply IH in H2 as ->. reflexivity.
  - injection H as -> ->. apply andb_true_intro. split; [apply part_eqb_true; reflexivity|apply IH; reflexivity].
Qed.
Lemma key_eqb_refl a : key_eqb a a = true. Proof. apply key_eqb_true. reflexivity. Qed.
Lemma pid_eqb_true p q : pid_eqb p q = true <-> p = q.
Proof.
  destruct p as [[a i] b], q as [[a' i'] b']. cbn [pid_eqb]. split.
  - intros H. apply andb_prop in H as [H H3]. apply andb_prop in H as [H1 H2]. apply Nat.eqb_eq in H1 as ->. apply Nat.eqb_eq in H2 as ->. apply Bool.eqb_prop in H3 as ->. reflexivity.
  - intros H. injection H as -> -> ->. rewrite !Nat.eqb_refl, Bool.eqb_reflx. reflexivity.
Qed.
Lemma list_eqb_nat a : forall b, list_eqb a b = true <-> a = b.
Proof.
  induction a as [|x a IH]; intros [|y b]; cbn [list_eqb]; (split; [intros H|intros H; try discriminate]); try discriminate; try reflexivity.
  - apply andb_prop in H as [H1 H2]. apply Nat.eqb_eq in H1 as ->. apply IH in H2 as ->. reflexivity.
  - injection H as -> ->. apply andb_true_intro. split; [apply Nat.eqb_refl|apply IH; reflexivity].
Qed.

Section Dict.
  Variable A : Type.
  Notation T := (tensor A).
  Implicit Types (st : memory A) (d : dict A) (lay : layout).
  Definition functional lay := forall k p q, In (k, p) lay -> In (k, q) lay -> p = q.
  Definition injective lay := forall k k' p, In (k, p) lay -> In (k', p) lay -> k = k'.
  Lemma lookup_saved lay st k p : functional lay -> In (k, p) lay -> lookup k (state_dict lay st) = Some (st p).
  Proof.
    intros Hf Hin. assert (G : forall l, (forall e, In e l -> In e lay) -> In (k, p) l -> lookup k (state_dict l st) = Some (st p)).
    { clear Hin. induction l as [|[k' q] l IH]; intros Hsub Hin; [destruct Hin|]. cbn [state_dict map lookup fst snd].
      destruct (key_eqb k k') eqn:E.
      - apply key_eqb_true in E. subst k'. rewrite (Hf k p q); [reflexivity| |apply Hsub; left; reflexivity]. apply Hsub. exact Hin.
      - destruct Hin as [H|H]; [injection H as -> ->; rewrite key_eqb_refl in E; discriminate|]. apply IH; [intros e He; apply Hsub; right; exact He|exact H]. }
    apply G; [auto|exact Hin].
  Qed.
  Lemma write_same st p t : write st p t p = t.
  Proof. unfold write. replace (pid_eqb p p) with true; [reflexivity|]. symmetry. apply pid_eqb_true. reflexivity. Qed.
  Lemma write_other st p t q : p <> q -> write st p t q = st q.
  Proof. intros H. unfold write. destruct (pid_eqb p q) eqn:E; [|reflexivity]. apply pid_eqb_true in E. contradiction. Qed.
  Lemma entry_shape d s e q : shp (fst (load_entry d s e) q) = shp (fst s q).
  Proof.
    unfold load_entry. destruct (lookup (fst e) d) as [t|]; [|reflexivity]. destruct (list_eqb _ _) eqn:E; [|reflexivity]. cbn [fst].
    apply list_eqb_nat in E. unfold write. destruct (pid_eqb (snd e) q) eqn:Eq; [|reflexivity]. apply pid_eqb_true in Eq. subst q. exact E.
  Qed.
  Lemma fold_shape d lay : forall s q, shp (fst (fold_left (load_entry d) lay s) q) = shp (fst s q).
  Proof. induction lay as [|e lay IH]; intros s q; [reflexivity|]. cbn [fold_left]. rewrite IH. apply entry_shape. Qed.
  Lemma fold_bad d lay : forall s, snd s = true -> snd (fold_left (load_entry d) lay s) = true.
  Proof.
    induction lay as [|e lay IH]; intros s Hs; [exact Hs|]. cbn [fold_left]. apply IH. unfold load_entry. destruct (lookup (fst e) d) as [t|]; [|reflexivity].
    destruct (list_eqb _ _); [exact Hs|reflexivity].
  Qed.
  (** an entry of another shape *)
  Lemma fold_mismatch d lay : forall s k p t, In (k, p) lay -> lookup k d = Some t -> shp t <> shp (fst s p) -> snd (fold_left (load_entry d) lay s) = true.
  Proof.
    induction lay as [|e lay IH]; intros s k p t Hin Hl Hs; [destruct Hin|]. cbn [fold_left]. destruct Hin as [->|Hin].
    - apply fold_bad. unfold load_entry. cbn [fst snd]. rewrite Hl. destruct (list_eqb _ _) eqn:E; [|reflexivity]. apply list_eqb_nat in E. contradiction.
    - apply (IH _ k p t Hin Hl). rewrite entry_shape. exact Hs.
  Qed.
  Definition matching d lay st : Prop := forall k p, In (k, p) lay -> exists t, lookup k d = Some t /\ shp t = shp (st p).
  Lemma fold_good d lay : forall s, matching d lay (fst s) -> snd (fold_left (load_entry d) lay s) = snd s.
  Proof.
    induction lay as [|[k p] lay IH]; intros s H; [reflexivity|]. cbn [fold_left]. rewrite IH.
    - unfold load_entry. cbn [fst snd]. destruct (H k p (or_introl eq_refl)) as (t & -> & Et). apply list_eqb_nat in Et. rewrite Et. reflexivity.
    - intros k' p' Hin. destruct (H k' p' (or_intror Hin)) as (t & E & Et). exists t. split; [exact E|]. rewrite entry_shape. exact Et.
  Qed.
  Lemma fold_other d lay : forall s q, (forall k, ~ In (k, q) lay) -> fst (fold_left (load_entry d) lay s) q = fst s q.
  Proof.
    induction lay as [|[k p] lay IH]; intros s q H; [reflexivity|]. cbn [fold_left]. rewrite IH by (intros k' Hin; apply (H k'); right; exact Hin).
    unfold load_entry. cbn [fst snd]. destruct (lookup k d) as [t|]; [|reflexivity]. destruct (list_eqb _ _); [|reflexivity]. cbn [fst].
    apply write_other. intros ->. apply (H k). left. reflexivity.
  Qed.
  Lemma in_pid_dec p lay : (exists k, In (k, p) lay) \/ (forall k, ~ In (k, p) lay).
  Proof.
    induction lay as [|[k' p'] lay IH]; [right; intros k []|]. destruct IH as [(k & H)|H]; [left; exists k; right; exact H|].
    destruct (pid_eqb p' p) eqn:E; [apply pid_eqb_true in E; subst p'; left; exists k'; left; reflexivity|].
    right. intros k [G|G]; [injection G as -> ->; assert (pid_eqb p p = true) by (apply pid_eqb_true; reflexivity); congruence|exact (H k G)].
  Qed.
  Lemma fold_value d lay : forall s k p t, injective lay -> matching d lay (fst s) -> In (k, p) lay -> lookup k d = Some t ->
    fst (fold_left (load_entry d) lay s) p = t.
  Proof.
    induction lay as [|[k' p'] lay IH]; intros s k p t Hi Hm Hin Hl; [destruct Hin|]. cbn [fold_left].
    assert (Hi' : injective lay) by (intros a b c Ha Hb; apply (Hi a b c); right; assumption).
    assert (Hm' : matching d lay (fst (load_entry d s (k', p')))).
    { intros a b Hab. destruct (Hm a b (or_intror Hab)) as (u & E & Eu). exists u. split; [exact E|]. rewrite entry_shape. exact Eu. }
    destruct (in_pid_dec p lay) as [(k2 & H2)|H2].
    - assert (k2 = k) as -> by (apply (Hi k2 k p); [right; exact H2|exact Hin]). exact (IH _ k p t Hi' Hm' H2 Hl).
    - rewrite fold_other by exact H2. destruct Hin as [E|Hin]; [|destruct (H2 k Hin)]. injection E as -> ->.
      destruct (Hm k p (or_introl eq_refl)) as (u & Eu & Es). rewrite Eu in Hl. injection Hl as <-.
      unfold load_entry. cbn [fst snd]. rewrite Eu. apply list_eqb_nat in Es. rewrite Es. cbn [fst]. apply write_same.
  Qed.
  Lemma has_key_in lay k p : In (k, p) lay -> has_key lay k = true.
  Proof. intros H. apply existsb_exists. exists (k, p). split; [exact H|apply key_eqb_refl]. Qed.
  (** a dictionary with the keys of the object and tensors of the right shapes *)
  Lemma load_same lay st st' : functional lay -> injective lay -> (forall p, shp (st' p) = shp (st p)) ->
    exists s, load lay st (state_dict lay st') = (s, Ok tt) /\ (forall k p, In (k, p) lay -> s p = st' p).
  Proof.
    intros Hf Hi Hs. assert (Hm : matching (state_dict lay st') lay st).
    { intros k p Hin. exists (st' p). split; [apply lookup_saved; assumption|apply Hs]. }
    pose proof (fold_good (state_dict lay st') lay (st, false) Hm) as Hb. 
    assert (Hv : forall k p, In (k, p) lay -> fst (fold_left (load_entry (state_dict lay st')) lay (st, false)) p = st' p).
    { intros k p Hin. apply (fold_value _ _ _ k); [exact Hi|exact Hm|exact Hin|apply lookup_saved; assumption]. }
    unfold load. destruct (fold_left _ lay (st, false)) as [s b]. cbn [fst snd] in *. subst b. exists s. split; [|exact Hv].
    replace (existsb _ _) with false; [reflexivity|]. symmetry. destruct (existsb _ _) eqn:E; [|reflexivity].
    apply existsb_exists in E as ([k t] & Hin & Hk). unfold state_dict in Hin. apply in_map_iff in Hin as ([k' p] & H & Hin). injection H as <- <-.
    cbn [fst] in Hk. rewrite (has_key_in _ _ _ Hin) in Hk. discriminate.
  Qed.
End Dict.

Section Mods.
  Variable K : sops.
  Notation T := (tensor K).
  Notation mod_ := (module K).
  Definition has_bias (m : mod_) : bool := match m with InputRegion _ _ _ => true | _ => false end.
  Lemma mods_layout_in pre c l : forall i k p, In (k, p) (mods_layout K pre c i l) <->
    exists j m b, nth_error l j = Some m /\ (b = true -> has_bias m = true) /\ k = pre ++ [PI (i + j); PN (if b : bool then "bias_mat" else "tensor")] /\ p = (c, i + j, b).
  Proof.
    induction l as [|m l IH]; intros i k p; cbn [mods_layout]; [split; [intros []|intros ([|j] & m & b & H & _); discriminate]|].
    split.
    - intros [H|H].
      + injection H as <- <-. exists 0, m, false. rewrite Nat.add_0_r. repeat split. discriminate.
      + apply in_app_or in H as [H|H].
        * destruct m; try (destruct H; fail). destruct H as [H|[]]. injection H as <- <-. exists 0, (InputRegion t use_bias bias), true. rewrite Nat.add_0_r. repeat split.
        * apply IH in H as (j & m' & b & H1 & H2 & H3 & H4). exists (S j), m', b. cbn [nth_error]. rewrite Nat.add_succ_r. repeat split; assumption.
    - intros ([|j] & m' & b & H1 & H2 & H3 & H4); cbn [nth_error] in H1.
      + injection H1 as <-. rewrite Nat.add_0_r in *. subst k p. destruct b; [right; apply in_or_app; left|left; reflexivity].
        specialize (H2 eq_refl). destruct m; try discriminate. left. reflexivity.
      + right. apply in_or_app. right. apply IH. exists j, m', b. rewrite Nat.add_succ_r in *. repeat split; assumption.
  Qed.
  (** modules of the same kinds and the same shapes *)
  Inductive alike : mod_ -> mod_ -> Prop :=
  | AL_reg t t' ub b b' : shp t = shp t' -> match b, b' with Some x, Some y => shp x = shp y | None, None => True | _, _ => False end -> alike (InputRegion t ub b) (InputRegion t' ub b')
  | AL_out t t' : shp t = shp t' -> alike (OutputSite t) (OutputSite t')
  | AL_in t t' : shp t = shp t' -> alike (InputSite t) (InputSite t')
  | AL_min t t' : shp t = shp t' -> alike (MergedInput t) (MergedInput t')
  | AL_mout t t' lo : shp t = shp t' -> alike (MergedOutput t lo) (MergedOutput t' lo).
  Lemma alike_layout pre c l l' : Forall2 alike l l' -> forall i, mods_layout K pre c i l = mods_layout K pre c i l'.
  Proof. induction 1 as [|a b l l' H _ IH]; intros i; [reflexivity|]. cbn [mods_layout]. rewrite IH. destruct H; reflexivity. Qed.
  Lemma alike_read l l' : Forall2 alike l l' -> forall i b, shp (mods_read K l i b) = shp (mods_read K l' i b).
  Proof.
    unfold mods_read. induction 1 as [|m m' l l' H _ IH]; intros [|i] b; try reflexivity; [|exact (IH i b)]. cbn [nth_error].
    destruct b; destruct H as [t t' ub b b' Ht Hb| | | |]; try reflexivity; try assumption. destruct b, b'; try (exfalso; exact Hb); [exact Hb|reflexivity].
  Qed.
  (** writing the values of another list *)
  Lemma mods_write_values st c l l' : Forall2 alike l l' -> forall i,
    (forall j m, nth_error l j = Some m -> st (c, i + j, false) = mods_read K l' j false) ->
    (forall j m, nth_error l j = Some m -> has_bias m = true -> st (c, i + j, true) = mods_read K l' j true) -> mods_write K st c i l = l'.
  Proof.
    induction 1 as [|m m' l l' H _ IH]; intros i H1 H2; [reflexivity|]. cbn [mods_write]. f_equal.
    - pose proof (H1 0 m eq_refl) as E1. pose proof (H2 0 m eq_refl) as E2. rewrite Nat.add_0_r in *. unfold mods_read in E1, E2. cbn [nth_error] in E1, E2.
      destruct H as [t t' ub b b' Ht Hb| | | |]; cbn [mod_write has_bias mod_tensor] in *; try (rewrite E1; reflexivity).
      destruct b, b'; try (exfalso; exact Hb); [rewrite E1, (E2 eq_refl); reflexivity|rewrite E1; reflexivity].
    - apply IH; intros j m0 Hj; rewrite Nat.add_succ_comm; [exact (H1 (S j) m0 Hj)|intros Hb; exact (H2 (S j) m0 Hj Hb)].
  Qed.
  Lemma alike_refl m : alike m m.
  Proof. destruct m; constructor; try reflexivity. destruct bias; [reflexivity|exact Logic.I]. Qed.
End Mods.
