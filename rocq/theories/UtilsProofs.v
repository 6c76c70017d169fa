(** * UtilsProofs: view, init_tensor *)
From Coq Require Import Reals Lra.
From Verif Require Import Base Scalars Tensor Contractables Utils.

(** ** ravel / unravel *)
Lemma iprod_pos sh idx : valid sh idx -> 0 < iprod sh.
Proof. induction 1 as [|i n idx sh Hi H IH]; [cbn; lia|]. change (iprod (n :: sh)) with (n * iprod sh). apply Nat.mul_pos_pos; [lia|exact IH]. Qed.
Lemma ravel_lt sh idx : valid sh idx -> ravel sh idx < iprod sh.
Proof.
  induction 1 as [|i n idx sh Hi H IH]; [cbn; lia|]. change (iprod (n :: sh)) with (n * iprod sh). cbn [ravel].
  assert (i * iprod sh + iprod sh <= n * iprod sh) by (replace (i * iprod sh + iprod sh) with (S i * iprod sh) by lia; apply Nat.mul_le_mono_r; lia).
  lia.
Qed.
Lemma unravel_ravel sh idx : valid sh idx -> unravel sh (ravel sh idx) = idx.
Proof.
  induction 1 as [|i n idx sh Hi H IH]; [reflexivity|]. cbn [ravel unravel].
  pose proof (ravel_lt sh idx H). pose proof (iprod_pos sh idx H).
  rewrite Nat.add_comm, Nat.div_add by lia. rewrite (Nat.div_small (ravel sh idx)) by assumption.
  rewrite Nat.mod_add by lia. rewrite Nat.mod_small by assumption. rewrite IH. reflexivity.
Qed.
Lemma unravel_valid sh n : n < iprod sh -> valid sh (unravel sh n).
Proof.
  revert n. induction sh as [|d sh IH]; intros n H; [constructor|].
  cbn [unravel]. change (iprod (d :: sh)) with (d * iprod sh) in H.
  assert (0 < iprod sh) by nia. constructor.
  - apply Nat.div_lt_upper_bound; [lia|]. lia.
  - apply IH. apply Nat.mod_upper_bound. lia.
Qed.
Lemma ravel_unravel sh n : n < iprod sh -> ravel sh (unravel sh n) = n.
Proof.
  revert n. induction sh as [|d sh IH]; intros n H; [cbn in *; lia|].
  cbn [unravel ravel]. change (iprod (d :: sh)) with (d * iprod sh) in H.
  assert (0 < iprod sh) by nia. rewrite IH by (apply Nat.mod_upper_bound; lia).
  rewrite (Nat.div_mod_eq n (iprod sh)) at 3. lia.
Qed.
Lemma iprod_app a b : iprod (a ++ b) = iprod a * iprod b.
Proof. induction a as [|x a IH]; cbn [app]; [cbn; lia|]. change (iprod (x :: a ++ b)) with (x * iprod (a ++ b)). rewrite IH. change (iprod (x :: a)) with (x * iprod a). lia. Qed.
Lemma ravel_app a b i j : List.length i = List.length a -> ravel (a ++ b) (i ++ j) = ravel a i * iprod b + ravel b j.
Proof.
  revert i. induction a as [|x a IH]; intros [|y i] H; try discriminate; [reflexivity|].
  cbn [app ravel]. rewrite IH by (cbn in H; lia). rewrite iprod_app. lia.
Qed.

(** ** index_of *)
Lemma inb_In c l : inb c l = true <-> In c l.
Proof.
  unfold inb. rewrite existsb_exists. split.
  - intros (x & Hx & E). apply Ascii.eqb_eq in E. subst. exact Hx.
  - intros H. exists c. split; [exact H|apply Ascii.eqb_refl].
Qed.
Lemma inb_notin c l : inb c l = false <-> ~ In c l.
Proof. rewrite <- inb_In. destruct (inb c l); split; congruence. Qed.

Section Init.
  Variable K : cring.
  (** the eye shape: 1 except at l and r *)
  Definition lr_shape (bs : list ascii) (es : list nat) : list nat := map2 (fun c n => if is_lr c then n else 1) bs es.
  Definition at_char (bs : list ascii) (i : list nat) (c : ascii) : nat := bond_size i bs c.
  Lemma bond_size_cons d es x bs c : bond_size (d :: es) (x :: bs) c = if Ascii.eqb x c then d else bond_size es bs c.
  Proof. unfold bond_size. cbn [index_of]. destruct (Ascii.eqb x c); [reflexivity|]. destruct (index_of c bs); reflexivity. Qed.

  Lemma shape_none bs : forall es, inb "l"%char bs = false -> inb "r"%char bs = false -> List.length es = List.length bs ->
    iprod (lr_shape bs es) = 1 /\ forall i, valid es i -> ravel (lr_shape bs es) (map2 bidx (lr_shape bs es) i) = 0.
  Proof.
    induction bs as [|x bs IH]; intros [|d es] Hl Hr Hn; try discriminate; [split; [reflexivity|]; intros i H; apply valid_nil in H; subst; reflexivity|].
    cbn [inb existsb] in Hl, Hr. apply orb_false_elim in Hl as [Hl1 Hl]. apply orb_false_elim in Hr as [Hr1 Hr].
    destruct (IH es Hl Hr) as [Hp Hi]; [cbn in Hn; lia|].
    assert (E : is_lr x = false) by (unfold is_lr; rewrite (Ascii.eqb_sym x "l"), (Ascii.eqb_sym x "r"), Hl1, Hr1; reflexivity).
    cbn [lr_shape map2]. rewrite E. fold (lr_shape bs es). split.
    - change (iprod (1 :: lr_shape bs es)) with (1 * iprod (lr_shape bs es)). rewrite Hp. reflexivity.
    - intros i H. apply valid_cons in H as (k & r & -> & Hk & H). cbn [map2 ravel]. rewrite bidx_1, (Hi r H). lia.
  Qed.
  Lemma shape_one c c' bs : forall es, (c = "l"%char /\ c' = "r"%char) \/ (c = "r"%char /\ c' = "l"%char) ->
    inb c bs = true -> inb c' bs = false -> nodupb bs = true -> List.length es = List.length bs ->
    iprod (lr_shape bs es) = bond_size es bs c /\
    forall i, valid es i -> ravel (lr_shape bs es) (map2 bidx (lr_shape bs es) i) = at_char bs i c.
  Proof.
    induction bs as [|x bs IH]; intros [|d es] Hc Hin Hout Hnd Hn; try discriminate.
    cbn [inb existsb] in Hin, Hout. apply orb_false_elim in Hout as [Ho1 Ho]. cbn [nodupb] in Hnd. apply andb_prop in Hnd as [Hx Hnd].
    apply negb_true_iff in Hx.
    cbn [lr_shape map2]. fold (lr_shape bs es). destruct (Ascii.eqb_spec c x) as [->|Hne].
    - assert (Hlr : is_lr x = true) by (destruct Hc as [[-> _]|[-> _]]; reflexivity). rewrite Hlr.
      destruct (shape_none bs es) as [Hp Hi]; try (destruct Hc as [[E ->]|[E ->]]; subst; assumption); [cbn in Hn; lia|].
      split.
      + change (iprod (d :: lr_shape bs es)) with (d * iprod (lr_shape bs es)). rewrite Hp, bond_size_cons, Ascii.eqb_refl. lia.
      + intros i H. apply valid_cons in H as (k & r & -> & Hk & H). cbn [map2 ravel]. rewrite (Hi r H), Hp, bidx_valid by exact Hk.
        unfold at_char. rewrite bond_size_cons, Ascii.eqb_refl. lia.
    - cbn [orb] in Hin.
      assert (E : is_lr x = false).
      { unfold is_lr. apply Ascii.eqb_neq in Hne. destruct Hc as [[-> ->]|[-> ->]]; rewrite (Ascii.eqb_sym x "l"), (Ascii.eqb_sym x "r"), Hne, Ho1; reflexivity. }
      rewrite E. destruct (IH es Hc Hin Ho Hnd) as [Hp Hi]; [cbn in Hn; lia|].
      assert (Hne' : Ascii.eqb x c = false) by (apply Ascii.eqb_neq; congruence).
      split.
      + change (iprod (1 :: lr_shape bs es)) with (1 * iprod (lr_shape bs es)). rewrite Hp, bond_size_cons, Hne'. lia.
      + intros i H. apply valid_cons in H as (k & r & -> & Hk & H). cbn [map2 ravel]. rewrite (Hi r H), bidx_1.
        unfold at_char. rewrite bond_size_cons, Hne'. lia.
  Qed.
  (** position of the first of the two characters *)
  Definition before (c c' : ascii) (bs : list ascii) : Prop :=
    exists p q, index_of c bs = Some p /\ index_of c' bs = Some q /\ p < q.
  Lemma shape_two c c' bs : forall es, (c = "l"%char /\ c' = "r"%char) \/ (c = "r"%char /\ c' = "l"%char) ->
    before c c' bs -> nodupb bs = true -> List.length es = List.length bs ->
    iprod (lr_shape bs es) = bond_size es bs c * bond_size es bs c' /\
    forall i, valid es i -> ravel (lr_shape bs es) (map2 bidx (lr_shape bs es) i) = at_char bs i c * bond_size es bs c' + at_char bs i c'.
  Proof.
    induction bs as [|x bs IH]; intros es Hc (p & q & Hp & Hq & Hpq) Hnd Hn; [discriminate|]. destruct es as [|d es]; [discriminate|].
    cbn [nodupb] in Hnd. apply andb_prop in Hnd as [Hx Hnd]. apply negb_true_iff in Hx.
    cbn [index_of] in Hp, Hq. cbn [lr_shape map2]. fold (lr_shape bs es).
    destruct (Ascii.eqb_spec x c) as [->|Hne].
    - injection Hp as <-. destruct (Ascii.eqb_spec c c') as [->|Hcc]; [injection Hq as <-; lia|].
      assert (Hlr : is_lr c = true) by (destruct Hc as [[-> _]|[-> _]]; reflexivity). rewrite Hlr.
      assert (Hin : inb c' bs = true).
      { destruct (index_of c' bs) as [k|] eqn:Ek; [|discriminate]. clear -Ek. revert k Ek. induction bs as [|y bs IHb]; intros k Ek; [discriminate|].
        cbn [index_of] in Ek. cbn [inb existsb]. rewrite Ascii.eqb_sym. destruct (Ascii.eqb y c'); [reflexivity|]. cbn [orb].
        destruct (index_of c' bs) as [m|]; [|discriminate]. apply (IHb m eq_refl). }
      destruct (shape_one c' c bs es) as [Hpr Hi]; try assumption; [tauto|cbn in Hn; lia|].
      assert (Hcc' : Ascii.eqb c c' = false) by (apply Ascii.eqb_neq; exact Hcc).
      split.
      + change (iprod (d :: lr_shape bs es)) with (d * iprod (lr_shape bs es)). rewrite Hpr, !bond_size_cons, Ascii.eqb_refl, Hcc'. reflexivity.
      + intros i H. apply valid_cons in H as (k & r & -> & Hk & H). cbn [map2 ravel]. rewrite (Hi r H), Hpr, bidx_valid by exact Hk.
        unfold at_char. rewrite !bond_size_cons, Ascii.eqb_refl, Hcc'. reflexivity.
    - destruct (index_of c bs) as [p'|] eqn:Ep; [|discriminate]. injection Hp as <-.
      destruct (Ascii.eqb_spec x c') as [->|Hne']; [injection Hq as <-; lia|].
      destruct (index_of c' bs) as [q'|] eqn:Eq; [|discriminate]. injection Hq as <-.
      assert (E1 : Ascii.eqb x c = false) by (apply Ascii.eqb_neq; exact Hne).
      assert (E2 : Ascii.eqb x c' = false) by (apply Ascii.eqb_neq; exact Hne').
      assert (E : is_lr x = false) by (unfold is_lr; destruct Hc as [[-> ->]|[-> ->]]; rewrite ?E1, ?E2; reflexivity).
      rewrite E. destruct (IH es Hc) as [Hpr Hi]; [exists p', q'; repeat split; auto; lia|assumption|cbn in Hn; lia|].
      split.
      + change (iprod (1 :: lr_shape bs es)) with (1 * iprod (lr_shape bs es)). rewrite Hpr, !bond_size_cons, E1, E2. lia.
      + intros i H. apply valid_cons in H as (k & r & -> & Hk & H). cbn [map2 ravel]. rewrite (Hi r H), bidx_1.
        unfold at_char. rewrite !bond_size_cons, E1, E2. lia.
  Qed.
  Lemma at_char_lt bs c : forall es i, valid es i -> inb c bs = true -> List.length es = List.length bs -> at_char bs i c < bond_size es bs c.
  Proof.
    unfold at_char. induction bs as [|x bs IH]; intros es i H Hin Hn; [discriminate|].
    destruct es as [|d es]; [discriminate|]. apply valid_cons in H as (k & r & -> & Hk & H).
    rewrite !bond_size_cons. cbn [inb existsb] in Hin. rewrite Ascii.eqb_sym in Hin. destruct (Ascii.eqb x c); [exact Hk|].
    apply IH; auto.
  Qed.
  Lemma exp_ok_same r : forall t, List.length r = List.length t -> Forall2 (fun a b => a = b \/ a = 1) r t -> exp_ok_rev r t = true.
  Proof.
    induction r as [|a r IH]; intros t Hn H; [reflexivity|]. inversion H as [|? b ? t' Hab Ht]; subst. cbn [exp_ok_rev].
    rewrite IH by (cbn in Hn; auto; lia). destruct Hab as [->| ->]; rewrite ?Nat.eqb_refl, ?orb_true_r; reflexivity.
  Qed.
  Lemma lr_shape_exp bs es : List.length es = List.length bs -> Forall2 (fun a b => a = b \/ a = 1) (lr_shape bs es) es.
  Proof.
    revert es. induction bs as [|x bs IH]; intros [|d es] Hn; try discriminate; [constructor|].
    cbn [lr_shape map2]. constructor; [destruct (is_lr x); auto|]. apply IH. cbn in Hn; lia.
  Qed.
  Lemma lr_shape_length bs es : List.length es = List.length bs -> List.length (lr_shape bs es) = List.length bs.
  Proof. revert es. induction bs as [|x bs IH]; intros [|d es] Hn; try discriminate; [reflexivity|]. cbn. f_equal. apply IH. cbn in Hn; lia. Qed.
  Lemma Forall2_rev' {A B} (P : A -> B -> Prop) l m : Forall2 P l m -> Forall2 P (rev l) (rev m).
  Proof. induction 1; [constructor|]. cbn [rev]. apply Forall2_app; [assumption|]. constructor; [assumption|constructor]. Qed.

  (** the tensor filled with identity matrices in (l, r) *)
  Lemma eye_expand bs es : nodupb bs = true -> List.length es = List.length bs ->
    (before "l"%char "r"%char bs \/ (before "r"%char "l"%char bs /\ bond_size es bs "l"%char = bond_size es bs "r"%char)) ->
    inb "l"%char bs = true -> inb "r"%char bs = true ->
    exists e e', view (eye2 K (bond_size es bs "l"%char) (bond_size es bs "r"%char)) (lr_shape bs es) = Ok e /\
      expand e es = Ok e' /\ shp e' = es /\
      forall i, valid es i -> get e' i = (if at_char bs i "l"%char =? at_char bs i "r"%char then s1 else s0 : K).
  Proof.
    intros Hnd Hn Hor Hl Hr. set (dl := bond_size es bs "l"%char) in *. set (dr := bond_size es bs "r"%char) in *.
    assert (Hpr : iprod (lr_shape bs es) = dl * dr).
    { destruct Hor as [H|[H _]].
      - apply (shape_two "l"%char "r"%char bs es); auto.
      - rewrite Nat.mul_comm. apply (shape_two "r"%char "l"%char bs es); auto. }
    unfold view. cbn [shp eye2]. replace (iprod [dl; dr]) with (dl * dr) by (cbn; lia). rewrite Hpr, Nat.eqb_refl.
    eexists. eexists. split; [reflexivity|]. unfold expand. cbn [shp].
    rewrite exp_ok_same; [|rewrite !rev_length; apply lr_shape_length in Hn as E; congruence|apply Forall2_rev'; apply lr_shape_exp; exact Hn].
    split; [reflexivity|]. split; [reflexivity|]. intros i Hi. cbn [get].
    assert (Hil : at_char bs i "l"%char < dl) by (apply at_char_lt; assumption).
    assert (Hir : at_char bs i "r"%char < dr) by (apply at_char_lt; assumption).
    assert (Hb : bproj (lr_shape bs es) i = map2 bidx (lr_shape bs es) i).
    { unfold bproj. rewrite (lr_shape_length _ _ Hn). 
      replace (lastn (List.length bs) i) with i; [reflexivity|]. symmetry. apply lastn_all. rewrite (valid_length _ _ Hi). exact Hn. }
    rewrite Hb. cbn [unravel]. replace (iprod [dr]) with dr by (cbn; lia). cbn [iprod fold_right nth].
    destruct Hor as [H|[H Hsq]].
    - rewrite (proj2 (shape_two "l"%char "r"%char bs es ltac:(auto) H Hnd Hn) i Hi). fold dr.
      rewrite Nat.add_comm, Nat.div_add, (Nat.div_small _ dr Hir) by lia.
      rewrite Nat.mod_add by lia. rewrite (Nat.mod_small _ dr Hir), Nat.div_1_r. cbn [Nat.add]. reflexivity.
    - rewrite (proj2 (shape_two "r"%char "l"%char bs es ltac:(auto) H Hnd Hn) i Hi). fold dl. rewrite Hsq.
      rewrite Nat.add_comm, Nat.div_add, (Nat.div_small _ dr) by lia.
      rewrite Nat.mod_add by lia. rewrite (Nat.mod_small _ dr), Nat.div_1_r by lia. cbn [Nat.add].
      rewrite Nat.eqb_sym. reflexivity.
  Qed.
End Init.

(** ** init_tensor *)
From Verif Require Import UtilsSpec.
Lemma coord_bond_size bs c l : coord bs c l = bond_size l bs c.
Proof.
  revert l. induction bs as [|x bs IH]; intros [|n l]; try reflexivity.
  - cbn [coord]. unfold bond_size. destruct (index_of c (x :: bs)) as [[|k]|]; reflexivity.
  - cbn [coord]. rewrite bond_size_cons, IH. reflexivity.
Qed.
Lemma nodupb_NoDup l : nodupb l = true <-> NoDup l.
Proof.
  induction l as [|x l IH]; cbn [nodupb]; [split; [constructor|reflexivity]|].
  rewrite andb_true_iff, negb_true_iff, inb_notin, IH. split.
  - intros [H1 H2]. constructor; assumption.
  - intros H. inversion H; auto.
Qed.
Lemma index_of_app c u r : ~ In c u -> index_of c (u ++ c :: r) = Some (List.length u).
Proof.
  induction u as [|x u IH]; intros H; cbn [app index_of].
  - rewrite Ascii.eqb_refl. reflexivity.
  - destruct (Ascii.eqb_spec x c) as [->|Hne]; [exfalso; apply H; left; reflexivity|].
    rewrite IH by (intros HH; apply H; right; exact HH). reflexivity.
Qed.
Lemma label_before_before c c' bs : NoDup bs -> label_before c c' bs -> before c c' bs.
Proof.
  intros Hnd (u & v & w & ->). exists (List.length u), (List.length (u ++ c :: v)). repeat split.
  - apply index_of_app. apply NoDup_remove_2 in Hnd. intros H; apply Hnd. apply in_or_app; left; exact H.
  - replace (u ++ c :: v ++ c' :: w) with ((u ++ c :: v) ++ c' :: w) in * by (rewrite <- app_assoc; reflexivity).
    apply index_of_app. apply NoDup_remove_2 in Hnd. intros H; apply Hnd. apply in_or_app; left; exact H.
  - rewrite app_length. cbn. lia.
Qed.
Lemma label_before_in c c' bs : label_before c c' bs -> inb c bs = true /\ inb c' bs = true.
Proof. intros (u & v & w & ->). rewrite !inb_In. split; apply in_or_app; right; [left; reflexivity|right; apply in_or_app; right; left; reflexivity]. Qed.
Lemma bond_size_lr bs c : forall es d, is_lr c = true -> inb c bs = true -> List.length es = List.length bs ->
  bond_size (map2 (fun c n => if is_lr c then d else n) bs es) bs c = d.
Proof.
  induction bs as [|x bs IH]; intros [|n es] d Hc Hin Hn; try discriminate.
  cbn [map2]. rewrite bond_size_cons. cbn [inb existsb] in Hin. rewrite Ascii.eqb_sym in Hin.
  destruct (Ascii.eqb_spec x c) as [->|]; [rewrite Hc; reflexivity|]. apply IH; auto.
Qed.
Lemma map2_length {A B C} (f : A -> B -> C) l m : List.length l = List.length m -> List.length (map2 f l m) = List.length l.
Proof. revert m. induction l as [|x l IH]; intros [|y m] H; try discriminate; [reflexivity|]. cbn. f_equal. apply IH. cbn in H; lia. Qed.
Lemma lr_shape_map2 bs d : forall es, List.length es = List.length bs ->
  lr_shape bs (map2 (fun c n => if is_lr c then d else n) bs es) = map (fun c => if is_lr c then d else 1) bs.
Proof.
  induction bs as [|x bs IH]; intros [|n es] H; try discriminate; [reflexivity|].
  unfold lr_shape. cbn [map2 map]. fold (lr_shape bs (map2 (fun c n => if is_lr c then d else n) bs es)).
  rewrite IH by (cbn in H; lia). destruct (is_lr x); reflexivity.
Qed.
Lemma within_full es : forall i, valid es i -> within i es = true.
Proof. induction es as [|n es IH]; intros i H; [destruct i; reflexivity|]. apply valid_cons in H as (k & r & -> & Hk & H). cbn [within]. rewrite IH by exact H. apply Nat.ltb_lt in Hk. rewrite Hk. reflexivity. Qed.
Lemma within_lr bs d : forall es i, List.length es = List.length bs -> valid es i -> nodupb bs = true ->
  inb "l"%char bs = true -> inb "r"%char bs = true ->
  within i (map2 (fun c n => if is_lr c then d else n) bs es) = (bond_size i bs "l"%char <? d) && (bond_size i bs "r"%char <? d).
Proof.
  intros es i Hn Hv Hnd Hl Hr.
  (* general form, with labels possibly missing *)
  assert (G : forall bs es i, List.length es = List.length bs -> valid es i -> nodupb bs = true ->
     within i (map2 (fun c n => if is_lr c then d else n) bs es)
     = (negb (inb "l"%char bs) || (bond_size i bs "l"%char <? d)) && (negb (inb "r"%char bs) || (bond_size i bs "r"%char <? d))).
  { clear. induction bs as [|x bs IH]; intros [|n es] i Hn Hv Hnd; try discriminate; [destruct i; reflexivity|].
    apply valid_cons in Hv as (k & r & -> & Hk & Hv). cbn [nodupb] in Hnd. apply andb_prop in Hnd as [Hx Hnd]. apply negb_true_iff in Hx.
    cbn [map2 within]. rewrite IH by (auto; cbn in Hn; lia). rewrite !bond_size_cons. cbn [inb existsb].
    fold (inb "l"%char bs). fold (inb "r"%char bs). unfold is_lr. rewrite (Ascii.eqb_sym "l" x), (Ascii.eqb_sym "r" x).
    destruct (Ascii.eqb_spec x "l"%char) as [->|Hl].
    - rewrite Hx. cbn [Ascii.eqb Bool.eqb orb negb andb]. destruct (k <? d), (inb "r"%char bs), (bond_size r bs "r" <? d); reflexivity.
    - destruct (Ascii.eqb_spec x "r"%char) as [->|Hr].
      + rewrite Hx. cbn [orb negb andb]. destruct (k <? d), (inb "l"%char bs), (bond_size r bs "l" <? d); reflexivity.
      + cbn [orb negb]. apply Nat.ltb_lt in Hk. rewrite Hk. reflexivity. }
  rewrite G by assumption. rewrite Hl, Hr. reflexivity.
Qed.
Lemma valid_lr bs d : forall es i, List.length es = List.length bs -> valid es i ->
  within i (map2 (fun c n => if is_lr c then d else n) bs es) = true -> valid (map2 (fun c n => if is_lr c then d else n) bs es) i.
Proof.
  induction bs as [|x bs IH]; intros [|n es] i Hn Hv Hw; try discriminate; [exact Hv|].
  apply valid_cons in Hv as (k & r & -> & Hk & Hv). cbn [map2 within] in *. apply andb_prop in Hw as [Hw1 Hw]. apply Nat.ltb_lt in Hw1.
  constructor; [exact Hw1|]. apply IH; auto.
Qed.

Section InitT.
  Variable K : cring.
  (** the shapes on which the identity construction of the code is right *)
  Definition eye_ok (bs : list ascii) (dl dr : nat) : Prop :=
    label_before "l"%char "r"%char bs \/ (label_before "r"%char "l"%char bs /\ dl = dr).
  Lemma eye_fill bs es (sh : list nat) (t0 : tensor K) : NoDup bs -> List.length sh = List.length bs ->
    List.length es = List.length bs -> eye_ok bs (bond_size es bs "l"%char) (bond_size es bs "r"%char) ->
    exists e e', view (eye2 K (bond_size es bs "l"%char) (bond_size es bs "r"%char)) (lr_shape bs es) = Ok e /\ expand e es = Ok e' /\
      shp e' = es /\ forall i, valid es i -> get e' i = (if coord bs "l"%char i =? coord bs "r"%char i then s1 else s0 : K).
  Proof.
    intros Hnd Hn He Hor. destruct (eye_expand K bs es) as (e & e' & H1 & H2 & H3 & H4).
    - apply nodupb_NoDup; exact Hnd.
    - exact He.
    - destruct Hor as [H|[H E]]; [left|right; split; [|exact E]]; apply label_before_before; assumption.
    - destruct Hor as [H|[H _]]; apply label_before_in in H; tauto.
    - destruct Hor as [H|[H _]]; apply label_before_in in H; tauto.
    - exists e, e'. rewrite H1, H2, H3. split; [reflexivity|]. split; [reflexivity|]. split; [reflexivity|].
      intros i Hi. rewrite !coord_bond_size. apply H4. exact Hi.
  Qed.
  Variable dstd : K.
  Lemma init_random_eye shape bond std rest randn : shp randn = shape ->
    List.length shape = String.length bond -> NoDup (chars bond) ->
    eye_ok (chars bond) (coord (chars bond) "l"%char shape) (coord (chars bond) "r"%char shape) ->
    exists t, init_tensor K dstd shape bond (ITuple "random_eye" std rest) randn = Ok t /\ shp t = shape /\
      forall i, valid shape i -> get t i = sadd (if coord (chars bond) "l"%char i =? coord (chars bond) "r"%char i then s1 else s0) (smul std (get randn i)).
  Proof.
    intros Hr Hn Hnd Hor. rewrite !coord_bond_size in Hor.
    assert (Hn' : List.length shape = List.length (chars bond)).
    { rewrite Hn. unfold chars. clear. induction bond as [|c s IH]; [reflexivity|]. cbn. rewrite IH. reflexivity. }
    destruct (eye_fill (chars bond) shape shape randn Hnd Hn' Hn' Hor) as (e & e' & H1 & H2 & H3 & H4).
    unfold init_tensor. cbn [rbind String.eqb Ascii.eqb Bool.eqb]. rewrite Hn', Nat.eqb_refl. rewrite (proj2 (nodupb_NoDup _) Hnd).
    cbn [assert_ rbind orb]. 
    assert (Hin : inb "l"%char (chars bond) && inb "r"%char (chars bond) = true).
    { destruct Hor as [H|[H _]]; apply label_before_in in H as [-> ->]; reflexivity. }
    rewrite Hin. cbn [assert_ rbind]. fold (lr_shape (chars bond) shape). rewrite H1. cbn [rbind]. rewrite H2. cbn [rbind].
    destruct (tzip_same sadd (fill_zeros K shape shape e') (tmap (smul std) randn) shape) as (t & Ht & Hs & Hg); [reflexivity|cbn; exact Hr|].
    exists t. split; [exact Ht|]. split; [exact Hs|]. intros i Hi. rewrite Hg by exact Hi. cbn [get fill_zeros tmap].
    rewrite within_full by exact Hi. rewrite H4 by exact Hi. reflexivity.
  Qed.
  Lemma chars_length bond : List.length (chars bond) = String.length bond.
  Proof. unfold chars. induction bond as [|c s IH]; [reflexivity|]. cbn. rewrite IH. reflexivity. Qed.
  Lemma init_min_random_eye shape bond std d rest randn : shp randn = shape ->
    List.length shape = String.length bond -> NoDup (chars bond) ->
    let dl := coord (chars bond) "l"%char shape in let dr := coord (chars bond) "r"%char shape in
    In "l"%char (chars bond) -> In "r"%char (chars bond) ->
    (d <= dl /\ d <= dr) \/ dl = dr ->
    exists t, init_tensor K dstd shape bond (ITuple "min_random_eye" std (d :: rest)) randn = Ok t /\ shp t = shape /\
      forall i, valid shape i -> get t i =
        sadd (if (coord (chars bond) "l"%char i =? coord (chars bond) "r"%char i)
                 && (coord (chars bond) "l"%char i <? Nat.min d (Nat.min dl dr)) then s1 else s0) (smul std (get randn i)).
  Proof.
    intros Hr Hn Hnd dl dr Hl Hrr Hor. unfold dl, dr in *. clear dl dr. rewrite !coord_bond_size in *.
    rewrite <- chars_length in Hn. set (bs := chars bond) in *.
    set (dl := bond_size shape bs "l"%char) in *. set (dr := bond_size shape bs "r"%char) in *.
    apply inb_In in Hl as Hl'. apply inb_In in Hrr as Hrr'.
    set (q := Nat.min d (Nat.min dl dr)) in *.
    set (es := map2 (fun c n => if is_lr c then q else n) bs shape).
    assert (Hes : List.length es = List.length bs) by (apply map2_length; congruence).
    assert (Hbl : bond_size es bs "l"%char = q) by (apply bond_size_lr; auto).
    assert (Hbr : bond_size es bs "r"%char = q) by (apply bond_size_lr; auto).
    destruct (eye_fill bs es shape randn Hnd Hn Hes) as (e & e' & H1 & H2 & H3 & H4).
    { rewrite Hbl, Hbr. unfold eye_ok.
      destruct (in_split _ _ Hl) as (u & v & E).
      assert (Hlr : In "r"%char (u ++ v)).
      { rewrite E in Hrr. apply in_app_or in Hrr as [H|[H|H]]; [apply in_or_app; left; exact H|discriminate|apply in_or_app; right; exact H]. }
      apply in_app_or in Hlr as [H|H]; destruct (in_split _ _ H) as (x & y & ->).
      - right. split; [|reflexivity]. exists x, y, v. rewrite E, <- app_assoc. reflexivity.
      - left. exists u, x, y. exact E. }
    rewrite Hbl, Hbr in H1. unfold es in H1. rewrite lr_shape_map2 in H1 by exact Hn.
    unfold init_tensor. cbn [rbind String.eqb Ascii.eqb Bool.eqb]. fold bs. rewrite Hn, Nat.eqb_refl, (proj2 (nodupb_NoDup _) Hnd).
    cbn [assert_ rbind orb]. rewrite Hl', Hrr'. cbn [andb assert_ rbind]. fold dl. fold dr.
    assert (Eq : ((if (d <=? dl) && (d <=? dr) then (d, d) else (dl, dr)) = (q, q)) /\ (if (d <=? dl) && (d <=? dr) then d else Nat.min dl dr) = q).
    { unfold q. destruct (Nat.leb_spec d dl), (Nat.leb_spec d dr); cbn [andb]; split; try (apply (f_equal2 pair)); lia. }
    destruct Eq as [Eq1 Eq2]. rewrite Eq1, Eq2. rewrite H1. cbn [rbind]. fold es. rewrite H2. cbn [rbind].
    destruct (tzip_same sadd (fill_zeros K shape es e') (tmap (smul std) randn) shape) as (t & Ht & Hs & Hg); [reflexivity|cbn; exact Hr|].
    exists t. split; [exact Ht|]. split; [exact Hs|]. intros i Hi. rewrite Hg by exact Hi. cbn [get fill_zeros tmap].
    rewrite !coord_bond_size. f_equal.
    pose proof (within_lr bs q shape i Hn Hi (proj2 (nodupb_NoDup _) Hnd) Hl' Hrr') as W. fold es in W. rewrite W.
    destruct (Nat.ltb_spec (bond_size i bs "l") q) as [Hlt|Hge], (Nat.ltb_spec (bond_size i bs "r") q) as [Hlt'|Hge']; cbn [andb] in W |- *.
    - rewrite H4 by (apply valid_lr; assumption). rewrite !coord_bond_size, andb_true_r. reflexivity.
    - destruct (Nat.eqb_spec (bond_size i bs "l") (bond_size i bs "r")); [lia|]. reflexivity.
    - rewrite andb_false_r. reflexivity.
    - rewrite andb_false_r. reflexivity.
  Qed.
End InitT.
