(** * Utils2Proofs: broadcasting. *)
From Coq Require Import Reals Lra Permutation.
From Verif Require Import Base Scalars Tensor Utils2 Spec.

(** ** axis *)
Lemma axis_lt k s : k < List.length s -> axis k s = nth (List.length s - S k) s 1.
Proof. intros H. unfold axis. apply rev_nth. exact H. Qed.
Lemma axis_ge k s : List.length s <= k -> axis k s = 1.
Proof. intros H. unfold axis. apply nth_overflow. rewrite rev_length. exact H. Qed.
Lemma axis_ext s s' : List.length s = List.length s' ->
  (forall k, k < List.length s -> axis k s = axis k s') -> s = s'.
Proof.
  intros Hl H. rewrite <- (rev_involutive s), <- (rev_involutive s'). f_equal.
  apply (nth_ext _ _ 1 1); [rewrite !rev_length; exact Hl|].
  rewrite rev_length. intros k Hk. apply H; exact Hk.
Qed.
Lemma axis_app_front k p s : k < List.length s -> axis k (p ++ s) = axis k s.
Proof.
  intros H. unfold axis. rewrite rev_app_distr, app_nth1 by (rewrite rev_length; exact H).
  reflexivity.
Qed.

Lemma is_broadcast_unique l s s' : is_broadcast l s -> is_broadcast l s' -> s = s'.
Proof.
  intros (_ & Hle & (t & Ht & Hlt) & Hax) (_ & Hle' & (t' & Ht' & Hlt') & Hax').
  assert (Hlen : List.length s = List.length s').
  { pose proof (Hle' t Ht). pose proof (Hle t' Ht'). lia. }
  apply axis_ext; [exact Hlen|]. intros k Hk.
  destruct (Hax k Hk) as [Hall (u & Hu & Hue)].
  destruct (Hax' k) as [Hall' (u' & Hu' & Hue')]; [lia|].
  destruct (Hall u' Hu') as [H1|H1]; destruct (Hall' u Hu) as [H2|H2]; congruence.
Qed.
Lemma is_broadcast_perm l l' s : Permutation l l' -> is_broadcast l s -> is_broadcast l' s.
Proof.
  intros Hp (Hne & Hle & (t & Ht & Hlt) & Hax).
  assert (Hin : forall x, In x l' -> In x l)
    by (intros x Hx; apply (Permutation_in x (Permutation_sym Hp) Hx)).
  assert (Hin' : forall x, In x l -> In x l') by (intros x Hx; apply (Permutation_in x Hp Hx)).
  repeat split.
  - intros ->. apply Permutation_sym, Permutation_nil in Hp. contradiction.
  - intros x Hx. apply Hle, Hin, Hx.
  - exists t; auto.
  - intros x Hx. destruct (Hax k H) as [Hall _]. apply Hall, Hin, Hx.
  - destruct (Hax k H) as [_ (u & Hu & Hue)]. exists u; auto.
Qed.

(** ** the loops of shape_broadcast *)
Definition comb (x o : nat) : option nat :=
  if negb (x =? 1) && negb (x =? o) then (if negb (o =? 1) then None else Some x) else Some o.
Lemma sb_step_spec s o : List.length s = List.length o ->
  match sb_step s o with
  | Ok r => List.length r = List.length o /\
            forall p, p < List.length o -> comb (nth p s 1) (nth p o 1) = Some (nth p r 1)
  | Err e => e = ValueError /\ exists p, p < List.length o /\ comb (nth p s 1) (nth p o 1) = None
  end.
Proof.
  revert o; induction s as [|x s IH]; intros [|y o] H; simpl in H; try discriminate.
  - simpl. split; [reflexivity|]. intros p Hp; simpl in Hp; lia.
  - injection H as H. specialize (IH o H). cbn [sb_step].
    change (if negb (x =? 1) && negb (x =? y) then if negb (y =? 1) then Err ValueError else Ok x else Ok y)
      with (if negb (x =? 1) && negb (x =? y) then if negb (y =? 1) then @Err nat ValueError else Ok x else Ok y).
    assert (Hc : (if negb (x =? 1) && negb (x =? y)
                  then if negb (y =? 1) then @Err nat ValueError else Ok x else Ok y)
                 = match comb x y with Some c => Ok c | None => Err ValueError end).
    { unfold comb. destruct (negb (x =? 1) && negb (x =? y)); [|reflexivity].
      destruct (negb (y =? 1)); reflexivity. }
    rewrite Hc. destruct (comb x y) as [c|] eqn:E; cbn [rbind].
    + destruct (sb_step s o) as [r|e]; cbn [rbind].
      * destruct IH as [Hr IH]. split; [simpl; congruence|].
        intros [|p] Hp; simpl in *; [exact E|]. apply IH; lia.
      * destruct IH as [-> (p & Hp & Hpc)]. split; [reflexivity|].
        exists (S p). simpl. split; [lia|exact Hpc].
    + split; [reflexivity|]. exists 0. simpl. split; [lia|exact E].
Qed.
Lemma sb_one_spec out s : List.length s <= List.length out ->
  match sb_one out s with
  | Ok r => List.length r = List.length out /\
            (forall k, k < List.length s -> comb (axis k s) (axis k out) = Some (axis k r)) /\
            (forall k, List.length s <= k -> axis k r = axis k out)
  | Err e => e = ValueError /\ exists k, k < List.length s /\ comb (axis k s) (axis k out) = None
  end.
Proof.
  intros Hle. unfold sb_one. set (d := List.length out - List.length s).
  assert (Hl : List.length s = List.length (skipn d out)) by (rewrite skipn_length; unfold d; lia).
  pose proof (sb_step_spec s (skipn d out) Hl) as H.
  assert (Hax : forall k, k < List.length s ->
            axis k out = nth (List.length s - S k) (skipn d out) 1).
  { intros k Hk. rewrite <- (firstn_skipn d out) at 1. rewrite axis_app_front by lia.
    rewrite axis_lt by lia. rewrite <- Hl. reflexivity. }
  destruct (sb_step s (skipn d out)) as [r|e]; cbn [rbind].
  - destruct H as [Hr H]. rewrite <- Hl in *. split; [|split].
    + rewrite app_length, firstn_length, Hr. unfold d; lia.
    + intros k Hk. rewrite Hax by exact Hk. rewrite axis_app_front by lia.
      rewrite !axis_lt by lia. rewrite Hr. apply H. lia.
    + intros k Hk. destruct (Nat.lt_ge_cases k (List.length out)) as [Hko|Hko].
      * rewrite !axis_lt; [|exact Hko|rewrite app_length, firstn_length, Hr; unfold d; lia].
        rewrite app_length, firstn_length, Hr.
        replace (Nat.min d (List.length out) + List.length s - S k)
          with (List.length out - S k) by (unfold d; lia).
        rewrite app_nth1 by (rewrite firstn_length; unfold d; lia).
        symmetry. transitivity (nth (List.length out - S k) (firstn d out ++ skipn d out) 1).
        { rewrite firstn_skipn. reflexivity. }
        apply app_nth1. rewrite firstn_length; unfold d; lia.
      * rewrite !axis_ge; [reflexivity|exact Hko|].
        rewrite app_length, firstn_length, Hr; unfold d; lia.
  - destruct H as [He (p & Hp & Hc)]. split; [exact He|].
    rewrite <- Hl in Hp. exists (List.length s - S p). split; [lia|].
    rewrite Hax by lia. rewrite axis_lt by lia.
    replace (List.length s - S (List.length s - S p)) with p by lia. exact Hc.
Qed.
Lemma comb_some x o r : comb x o = Some r -> (x = 1 \/ x = r) /\ (o = 1 \/ o = r) /\ (r = x \/ r = o).
Proof.
  unfold comb. destruct (Nat.eqb_spec x 1), (Nat.eqb_spec x o), (Nat.eqb_spec o 1); simpl;
    intros H; try discriminate; injection H as <-; auto.
Qed.
Lemma comb_none x o : comb x o = None -> x <> 1 /\ o <> 1 /\ x <> o.
Proof.
  unfold comb. destruct (Nat.eqb_spec x 1), (Nat.eqb_spec x o), (Nat.eqb_spec o 1); simpl;
    intros H; try discriminate; auto.
Qed.
Lemma sb_one_broadcast l out s : is_broadcast l out -> List.length s <= List.length out ->
  match sb_one out s with
  | Ok r => is_broadcast (s :: l) r
  | Err e => e = ValueError /\
             exists k t, In t l /\ axis k s <> 1 /\ axis k t <> 1 /\ axis k s <> axis k t
  end.
Proof.
  intros (Hne & Hle & (t0 & Ht0 & Hlt) & Hax) Hs.
  pose proof (sb_one_spec out s Hs) as H. destruct (sb_one out s) as [r|e].
  - destruct H as (Hr & H1 & H2). split; [discriminate|]. split; [|split].
    + intros t [<-|Ht]; [lia|]. rewrite Hr. apply Hle, Ht.
    + exists t0. split; [right; exact Ht0|congruence].
    + intros k Hk. rewrite Hr in Hk. destruct (Hax k Hk) as [Hall (u & Hu & Hue)].
      destruct (Nat.lt_ge_cases k (List.length s)) as [Hks|Hks].
      * destruct (comb_some _ _ _ (H1 k Hks)) as (C1 & C2 & C3). split.
        -- intros t [<-|Ht]; [exact C1|]. destruct (Hall t Ht) as [E|E]; [auto|].
           rewrite E. exact C2.
        -- destruct C3 as [E|E]; [exists s; split; [left; reflexivity|congruence]|].
           exists u; split; [right; exact Hu|congruence].
      * rewrite (H2 k Hks). split.
        -- intros t [<-|Ht]; [left; apply axis_ge; exact Hks|apply Hall, Ht].
        -- exists u; split; [right; exact Hu|exact Hue].
  - destruct H as (-> & k & Hk & Hc). split; [reflexivity|].
    destruct (comb_none _ _ Hc) as (C1 & C2 & C3).
    destruct (Hax k) as [_ (u & Hu & Hue)]; [lia|].
    exists k, u. rewrite Hue. auto.
Qed.
Lemma conflict_no_broadcast l s1 s2 k : In s1 l -> In s2 l ->
  axis k s1 <> 1 -> axis k s2 <> 1 -> axis k s1 <> axis k s2 ->
  forall r, ~ is_broadcast l r.
Proof.
  intros H1 H2 N1 N2 N r (_ & Hle & _ & Hax).
  assert (Hk : k < List.length r).
  { destruct (Nat.lt_ge_cases k (List.length r)) as [|Hge]; [assumption|].
    exfalso. apply N1. apply axis_ge. pose proof (Hle s1 H1). lia. }
  destruct (Hax k Hk) as [Hall _]. destruct (Hall s1 H1), (Hall s2 H2); congruence.
Qed.
Lemma rfold_sb l out rest : is_broadcast l out ->
  (forall s, In s rest -> List.length s <= List.length out) ->
  match rfold sb_one out rest with
  | Ok r => is_broadcast (rest ++ l) r
  | Err e => e = ValueError /\ forall r, ~ is_broadcast (rest ++ l) r
  end.
Proof.
  revert l out; induction rest as [|s rest IH]; intros l out Hb Hlen; [exact Hb|].
  cbn [rfold]. pose proof (sb_one_broadcast l out s Hb (Hlen s (or_introl eq_refl))) as H.
  pose proof (sb_one_spec out s (Hlen s (or_introl eq_refl))) as Hsp.
  destruct (sb_one out s) as [o|e]; cbn [rbind].
  - specialize (IH (s :: l) o H).
    assert (Hp : Permutation (rest ++ s :: l) ((s :: rest) ++ l))
      by (simpl; apply Permutation_sym, Permutation_middle).
    destruct (rfold sb_one o rest) as [r|e].
    + apply (is_broadcast_perm _ _ _ Hp). apply IH. destruct Hsp as [-> _].
      intros x Hx; apply Hlen; right; exact Hx.
    + destruct IH as [-> IH].
      { destruct Hsp as [-> _]. intros x Hx; apply Hlen; right; exact Hx. }
      split; [reflexivity|]. intros r Hr. apply (IH r).
      apply (is_broadcast_perm _ _ _ (Permutation_sym Hp)), Hr.
  - destruct H as [-> (k & t & Ht & N1 & N2 & N)]. split; [reflexivity|].
    apply (conflict_no_broadcast _ s t k); auto.
    + left; reflexivity.
    + simpl. right. apply in_or_app. right; exact Ht.
Qed.
Lemma argmax_len_spec l : l <> [] ->
  argmax_len l < List.length l /\
  forall s, In s l -> List.length s <= List.length (nth (argmax_len l) l []).
Proof.
  induction l as [|s l IH]; intros Hne; [contradiction|]. cbn [argmax_len].
  destruct (forallb (fun s' => List.length s' <=? List.length s) l) eqn:E.
  - rewrite forallb_forall in E. split; [simpl; lia|]. intros x [<-|Hx]; [simpl; lia|].
    simpl. apply Nat.leb_le, E, Hx.
  - assert (Hl : l <> []) by (intros ->; discriminate).
    destruct (IH Hl) as [H1 H2]. split; [simpl; lia|]. intros x [<-|Hx]; simpl; [|apply H2, Hx].
    assert (Hex : exists y, In y l /\ List.length s < List.length y).
    { clear -E. induction l as [|y l IH]; simpl in E; [discriminate|].
      apply andb_false_iff in E as [E|E].
      - apply Nat.leb_gt in E. exists y; split; [left; reflexivity|exact E].
      - destruct (IH E) as (z & Hz & Hlt). exists z; split; [right; exact Hz|exact Hlt]. }
    destruct Hex as (y & Hy & Hlt). pose proof (H2 y Hy). lia.
Qed.
Lemma remove_nth_perm {A} (l : list A) n d : n < List.length l ->
  Permutation ((firstn n l ++ skipn (S n) l) ++ [nth n l d]) l.
Proof.
  intros H. rewrite <- app_assoc.
  transitivity (firstn n l ++ nth n l d :: skipn (S n) l).
  - apply Permutation_app_head. apply Permutation_sym, Permutation_cons_append.
  - assert (E : l = firstn n l ++ nth n l d :: skipn (S n) l).
    { clear -H. revert n H; induction l as [|x l IH]; intros n H; simpl in H; [lia|].
      destruct n as [|n]; [reflexivity|]. simpl. f_equal. apply IH. lia. }
    rewrite <- E. reflexivity.
Qed.
(** shape_broadcast is NumPy broadcasting *)
Lemma shape_broadcast_spec l :
  match shape_broadcast l with
  | Ok s => is_broadcast l s
  | Err e => e = ValueError /\ forall s, ~ is_broadcast l s
  end.
Proof.
  destruct l as [|s0 l0] eqn:El.
  - split; [reflexivity|]. intros s (H & _). contradiction.
  - rewrite <- El. assert (Hne : l <> []) by (rewrite El; discriminate).
    replace (shape_broadcast l) with
      (rfold sb_one (nth (argmax_len l) l []) (firstn (argmax_len l) l ++ skipn (S (argmax_len l)) l))
      by (rewrite El; reflexivity).
    destruct (argmax_len_spec l Hne) as [Hm Hmax].
    set (m := argmax_len l) in *. set (mx := nth m l []) in *.
    assert (Hb : is_broadcast [mx] mx).
    { split; [discriminate|]. split; [intros t [<-|[]]; lia|]. split.
      - exists mx; split; [left; reflexivity|reflexivity].
      - intros k Hk; split; [intros t [<-|[]]; auto|]. exists mx; split; [left|]; reflexivity. }
    pose proof (rfold_sb [mx] mx (firstn m l ++ skipn (S m) l) Hb) as H.
    assert (Hlen : forall s, In s (firstn m l ++ skipn (S m) l) -> List.length s <= List.length mx).
    { intros s Hs. apply Hmax. apply (Permutation_in s (remove_nth_perm l m [] Hm)).
      apply in_or_app; left; exact Hs. }
    specialize (H Hlen). pose proof (remove_nth_perm l m [] Hm) as Hp. fold mx in Hp.
    destruct (rfold sb_one mx _) as [r|e].
    + apply (is_broadcast_perm _ _ _ Hp), H.
    + destruct H as [-> H]. split; [reflexivity|]. intros s Hs. apply (H s).
      apply (is_broadcast_perm _ _ _ (Permutation_sym Hp)), Hs.
Qed.
Lemma shape_broadcast_Ok l s : is_broadcast l s -> shape_broadcast l = Ok s.
Proof.
  intros H. pose proof (shape_broadcast_spec l) as Hs.
  destruct (shape_broadcast l) as [r|e].
  - f_equal. apply (is_broadcast_unique l); assumption.
  - destruct Hs as [_ Hs]. exfalso. apply (Hs s H).
Qed.

(** ** using a broadcast shape *)
Lemma nth_app_len {A} (l r : list A) k d : nth (List.length l + k) (l ++ r) d = nth k r d.
Proof. rewrite app_nth2 by lia. f_equal. lia. Qed.

Definition bc_compat (s c : list nat) : Prop :=
  List.length s <= List.length c /\
  forall k, k < List.length s -> axis k s = 1 \/ axis k s = axis k c.
Lemma is_broadcast_compat l c s : is_broadcast l c -> In s l -> bc_compat s c.
Proof.
  intros (_ & Hle & _ & Hax) Hs. split; [apply Hle, Hs|]. intros k Hk.
  destruct (Hax k) as [Hall _]; [pose proof (Hle s Hs); lia|]. apply Hall, Hs.
Qed.
(** right-aligned decomposition *)
Lemma bc_compat_split s c : bc_compat s c ->
  exists p c', c = p ++ c' /\ List.length c' = List.length s /\ Forall2 (fun a b => a = 1 \/ a = b) s c'.
Proof.
  intros [Hle H]. exists (droplast (List.length s) c), (lastn (List.length s) c).
  split; [symmetry; apply droplast_lastn|]. split; [apply lastn_length, Hle|].
  assert (Hl : List.length (lastn (List.length s) c) = List.length s) by (apply lastn_length, Hle).
  assert (Hn : forall p, p < List.length s ->
     nth p s 1 = 1 \/ nth p s 1 = nth p (lastn (List.length s) c) 1).
  { intros p Hp. destruct (H (List.length s - S p)) as [E|E]; [lia| |].
    - left. rewrite axis_lt in E by lia.
      replace (List.length s - S (List.length s - S p)) with p in E by lia. exact E.
    - right. rewrite axis_lt in E by lia.
      replace (List.length s - S (List.length s - S p)) with p in E by lia. rewrite E.
      rewrite <- (droplast_lastn (List.length s) c) at 1. rewrite axis_app_front by lia.
      rewrite axis_lt by lia. f_equal. lia. }
  revert Hn Hl. generalize (lastn (List.length s) c) as c'. clear.
  induction s as [|x s IH]; intros [|y c'] Hn Hl; simpl in Hl; try discriminate; constructor.
  - apply (Hn 0). simpl; lia.
  - apply IH; [|congruence]. intros p Hp. apply (Hn (S p)). simpl; lia.
Qed.
Lemma bproj_compat_valid s c b : bc_compat s c -> valid c b -> valid s (bproj s b).
Proof.
  intros Hc Hb. destruct (bc_compat_split s c Hc) as (p & c' & -> & Hl & Hf).
  apply valid_app_inv in Hb as (b1 & b2 & -> & Hb1 & Hb2).
  rewrite bproj_app by (apply valid_length in Hb2; congruence).
  clear Hc Hb1. revert b2 Hl Hb2. induction Hf as [|x y s c' Hxy Hf IH]; intros b2 Hl Hb2.
  - apply valid_nil in Hb2; subst. constructor.
  - apply valid_cons in Hb2 as (i & r & -> & Hi & Hr). simpl. constructor.
    + unfold bidx. destruct (Nat.eqb_spec x 1); [lia|]. destruct Hxy; [contradiction|congruence].
    + apply IH; [simpl in Hl; congruence|exact Hr].
Qed.
Lemma bc_compat_refl s : bc_compat s s.
Proof. split; [lia|]. auto. Qed.

(** *** batch_broadcast *)
Definition batch_out {A} (c : list nat) (nnb : nat) (t t' : tensor A) : Prop :=
  shp t' = c ++ lastn nnb (shp t) /\
  forall b r, List.length b = List.length c -> List.length r = nnb ->
    valid (lastn nnb (shp t)) r ->
    get t' (b ++ r) = get t (bproj (droplast nnb (shp t)) b ++ r).

Lemma Forall2_length' {A B} (P : A -> B -> Prop) l m : Forall2 P l m -> List.length l = List.length m.
Proof. induction 1; simpl; congruence. Qed.
Lemma exp_ok_rev_spec r t : List.length r <= List.length t ->
  (forall k, k < List.length r -> nth k r 1 = 1 \/ nth k r 1 = nth k t 1) ->
  exp_ok_rev r t = true.
Proof.
  revert t; induction r as [|d r IH]; intros [|e t] Hl H; simpl in Hl; try lia; try reflexivity.
  simpl. apply andb_true_iff. split.
  - destruct (H 0) as [E|E]; [simpl; lia| |]; simpl in E; subst.
    + rewrite Nat.eqb_refl. apply orb_true_r.
    + rewrite Nat.eqb_refl. reflexivity.
  - apply IH; [lia|]. intros k Hk. apply (H (S k)). simpl; lia.
Qed.
Lemma repeat_app_axis k n s : k < n + List.length s -> axis k (repeat 1 n ++ s) = axis k s.
Proof.
  intros H. destruct (Nat.lt_ge_cases k (List.length s)) as [Hk|Hk].
  - apply axis_app_front, Hk.
  - rewrite (axis_ge k s Hk). unfold axis. rewrite rev_app_distr, app_nth2 by (rewrite rev_length; exact Hk).
    rewrite rev_length.
    assert (Hin : forall m j, nth j (rev (repeat 1 m)) 1 = 1).
    { intros m j. destruct (Nat.lt_ge_cases j m) as [Hj|Hj].
      - assert (In (nth j (rev (repeat 1 m)) 1) (repeat 1 m)) as Hi.
        { apply in_rev. apply nth_In. rewrite rev_length, repeat_length. exact Hj. }
        apply repeat_spec in Hi. exact Hi.
      - apply nth_overflow. rewrite rev_length, repeat_length. exact Hj. }
    apply Hin.
Qed.
Lemma valid_bproj_ones n s i : List.length i = n + List.length s ->
  bproj (repeat 1 n ++ s) i = repeat 0 n ++ bproj s i.
Proof.
  intros H. unfold bproj. rewrite (lastn_all i) by (rewrite app_length, repeat_length; exact H).
  rewrite <- (firstn_skipn n i) at 1.
  rewrite map2_app by (rewrite repeat_length, firstn_length; lia). f_equal.
  - assert (Hl : List.length (firstn n i) = n) by (rewrite firstn_length; lia).
    revert Hl. generalize (firstn n i) as l. clear. induction n as [|n IH]; intros [|x l] Hl;
      simpl in *; try discriminate; [reflexivity|]. f_equal. apply IH. congruence.
  - unfold lastn. rewrite H. f_equal. f_equal. lia.
Qed.

Lemma safe_expand_batch {A} (t : tensor A) nnb c :
  nnb <= ndim t -> bc_compat (droplast nnb (shp t)) c ->
  exists t',
    safe_expand (unsq_front (List.length c + nnb - ndim t) t)
       (c ++ skipn (List.length c) (shp (unsq_front (List.length c + nnb - ndim t) t))) = Ok t' /\
    batch_out c nnb t t'.
Proof.
  intros Hn Hc. unfold ndim in *.
  set (k := List.length c + nnb - List.length (shp t)).
  destruct Hc as [Hcl Hca]. rewrite droplast_length in Hcl.
  set (bs := droplast nnb (shp t)) in *. set (rs := lastn nnb (shp t)).
  assert (Hsh : shp t = bs ++ rs) by (symmetry; apply droplast_lastn).
  assert (Hrs : List.length rs = nnb) by (apply lastn_length; lia).
  assert (Hbs : List.length bs + nnb = List.length (shp t)) by (unfold bs; rewrite droplast_length; lia).
  assert (Hk : k + List.length bs = List.length c) by (unfold k; lia).
  assert (Hsk : skipn (List.length c) (shp (unsq_front k t)) = rs).
  { cbn [unsq_front shp]. rewrite Hsh. rewrite app_assoc, skipn_app.
    rewrite app_length, repeat_length.
    replace (List.length c - (k + List.length bs)) with 0 by lia. simpl.
    rewrite skipn_all2 by (rewrite app_length, repeat_length; lia). reflexivity. }
  rewrite Hsk.
  assert (Hex : expand (unsq_front k t) (c ++ rs) =
     Ok (mkT (c ++ rs) (fun i => get (unsq_front k t) (bproj (shp (unsq_front k t)) i)))).
  { unfold expand. rewrite exp_ok_rev_spec; [reflexivity| |].
    - rewrite !rev_length. cbn [unsq_front shp]. rewrite !app_length, repeat_length. lia.
    - intros j Hj. rewrite rev_length in Hj. cbn [unsq_front shp] in *.
      rewrite app_length, repeat_length in Hj.
      change (axis j (repeat 1 k ++ shp t) = 1 \/ axis j (repeat 1 k ++ shp t) = axis j (c ++ rs)).
      rewrite repeat_app_axis by exact Hj. rewrite Hsh.
      destruct (Nat.lt_ge_cases j (List.length rs)) as [Hjr|Hjr].
      + right. rewrite !axis_app_front by exact Hjr. reflexivity.
      + assert (Hsplit : forall l, axis j (l ++ rs) = axis (j - List.length rs) l).
        { intros l. unfold axis. rewrite rev_app_distr, app_nth2 by (rewrite rev_length; exact Hjr).
          rewrite rev_length. reflexivity. }
        rewrite !Hsplit. destruct (Nat.lt_ge_cases (j - List.length rs) (List.length bs)) as [Hb|Hb].
        * apply Hca. exact Hb.
        * left. apply axis_ge. exact Hb. }
  assert (Hgen : exists t', safe_expand (unsq_front k t) (c ++ rs) = Ok t' /\
     shp t' = c ++ rs /\ (forall i, List.length i = List.length (c ++ rs) ->
        get t' i = get t (bproj (shp t) i))).
  { unfold safe_expand. destruct (c ++ rs) as [|x l] eqn:E.
    - apply app_eq_nil in E as [Ec Er].
      exists (unsq_front k t). split; [reflexivity|].
      assert (List.length c = 0) by (rewrite Ec; reflexivity).
      assert (Hk0 : k = 0) by lia.
      assert (Hbsn : bs = []) by (apply length_zero_iff_nil; lia).
      cbn [unsq_front shp get]. rewrite Hk0, Hsh, Hbsn, Er. split; [reflexivity|].
      intros i Hi. apply length_zero_iff_nil in Hi. rewrite Hi. reflexivity.
    - rewrite Hex. eexists; split; [reflexivity|]. cbn [shp get unsq_front].
      split; [reflexivity|]. intros i Hi.
      rewrite valid_bproj_ones.
      + rewrite skipn_app, repeat_length, Nat.sub_diag, skipn_all2 by (rewrite repeat_length; lia).
        reflexivity.
      + rewrite Hi, <- E, app_length, Hsh, app_length. lia. }
  destruct Hgen as (t' & E & Hsh' & Hget). exists t'. split; [exact E|].
  split; [exact Hsh'|]. intros b r Hb Hr Hv. fold bs rs in Hv |- *.
  rewrite Hget by (rewrite !app_length; lia). f_equal.
  rewrite Hsh. unfold bproj.
  assert (Hr2 : List.length r = List.length rs) by lia.
  rewrite app_length.
  assert (Hlast : lastn (List.length bs + List.length rs) (b ++ r) = lastn (List.length bs) b ++ r).
  { unfold lastn. rewrite app_length, skipn_app.
    replace (List.length b + List.length r - (List.length bs + List.length rs))
      with (List.length b - List.length bs) by lia.
    f_equal. replace (List.length b - List.length bs - List.length b) with 0 by lia. reflexivity. }
  rewrite Hlast, map2_app.
  - f_equal. apply map2_bidx_valid. exact Hv.
  - symmetry. apply lastn_length. lia.
Qed.

Lemma rmap_Forall2 {A B} (f : A -> res B) (P : A -> B -> Prop) l :
  (forall x, In x l -> exists y, f x = Ok y /\ P x y) ->
  exists ys, rmap f l = Ok ys /\ Forall2 P l ys.
Proof.
  induction l as [|x l IH]; intros H.
  - exists []; split; [reflexivity|constructor].
  - destruct (H x (or_introl eq_refl)) as (y & Hy & HP).
    destruct (IH (fun z Hz => H z (or_intror Hz))) as (ys & Hys & HF).
    exists (y :: ys). simpl. rewrite Hy, Hys. split; [reflexivity|constructor; assumption].
Qed.
Lemma rmap_map {A B C} (g : A -> B) (f : B -> res C) l : rmap f (map g l) = rmap (fun x => f (g x)) l.
Proof. induction l as [|x l IH]; [reflexivity|]. simpl. rewrite IH. reflexivity. Qed.

Definition batch_shapes {A} (ts : list (tensor A)) (nnb : list nat) : list (list nat) :=
  map (fun p => droplast (snd p) (shp (fst p))) (combine ts nnb).

Lemma batch_broadcast_ok {A} (ts : list (tensor A)) nnb c :
  List.length ts = List.length nnb ->
  Forall2 (fun t n => n <= ndim t) ts nnb ->
  2 <= List.length ts ->
  is_broadcast (batch_shapes ts nnb) c ->
  exists out, batch_broadcast ts nnb = Ok out /\
    Forall2 (fun p t' => batch_out c (snd p) (fst p) t') (combine ts nnb) out.
Proof.
  intros Hlen Hnn H2 Hb. unfold batch_broadcast.
  rewrite (assert_true (List.length ts =? List.length nnb)) by (apply Nat.eqb_eq; exact Hlen).
  cbn [rbind].
  assert (Hall : forallb (fun p => snd p <=? ndim (fst p)) (combine ts nnb) = true).
  { clear -Hnn. induction Hnn as [|t n ts nnb Htn H IH]; [reflexivity|]. simpl.
    rewrite IH. apply andb_true_iff; split; [apply Nat.leb_le; exact Htn|reflexivity]. }
  rewrite Hall. cbn [assert_ rbind].
  destruct (Nat.ltb_spec (List.length ts) 2); [lia|].
  fold (batch_shapes ts nnb). rewrite (shape_broadcast_Ok _ _ Hb). cbn [rbind].
  rewrite rmap_map. apply rmap_Forall2. intros [t n] Hin. cbn [fst snd].
  apply safe_expand_batch.
  - rewrite forallb_forall in Hall. apply Nat.leb_le. apply (Hall (t, n) Hin).
  - apply (is_broadcast_compat _ _ _ Hb). unfold batch_shapes.
    apply (in_map (fun p => droplast (snd p) (shp (fst p))) _ _ Hin).
Qed.
Lemma batch_broadcast_err {A} (ts : list (tensor A)) nnb :
  List.length ts = List.length nnb ->
  Forall2 (fun t n => n <= ndim t) ts nnb ->
  2 <= List.length ts ->
  (forall c, ~ is_broadcast (batch_shapes ts nnb) c) ->
  batch_broadcast ts nnb = Err ValueError.
Proof.
  intros Hlen Hnn H2 Hb. unfold batch_broadcast.
  rewrite (assert_true (List.length ts =? List.length nnb)) by (apply Nat.eqb_eq; exact Hlen).
  cbn [rbind].
  assert (Hall : forallb (fun p => snd p <=? ndim (fst p)) (combine ts nnb) = true).
  { clear -Hnn. induction Hnn as [|t n ts nnb Htn H IH]; [reflexivity|]. simpl.
    rewrite IH. apply andb_true_iff; split; [apply Nat.leb_le; exact Htn|reflexivity]. }
  rewrite Hall. cbn [assert_ rbind].
  destruct (Nat.ltb_spec (List.length ts) 2); [lia|].
  fold (batch_shapes ts nnb). pose proof (shape_broadcast_spec (batch_shapes ts nnb)) as Hs.
  destruct (shape_broadcast (batch_shapes ts nnb)) as [s|e].
  - exfalso. apply (Hb s Hs).
  - destruct Hs as [-> _]. reflexivity.
Qed.
