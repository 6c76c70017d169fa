(** * SvdProofs: svd_flex *)
From Coq Require Import Reals Lra Permutation.
From Verif Require Import Base Scalars Tensor EinsumProofs Contractables Utils UtilsSpec UtilsProofs.

(** ** labels *)
Definition plain (l : list ascii) : Prop := forallb islower l = true.
Lemma plain_app a b : plain (a ++ b) <-> plain a /\ plain b.
Proof. unfold plain. rewrite forallb_app, andb_true_iff. reflexivity. Qed.
Lemma plain_neq c l d : plain l -> In c l -> islower d = false -> Ascii.eqb c d = false.
Proof.
  intros H Hc Hd. unfold plain in H. rewrite forallb_forall in H. apply H in Hc. apply Ascii.eqb_neq. intros ->. congruence.
Qed.
Lemma plain_cons x l : plain (x :: l) <-> islower x = true /\ plain l.
Proof. unfold plain. cbn [forallb]. rewrite andb_true_iff. reflexivity. Qed.
Lemma lower_neq x d : islower x = true -> islower d = false -> Ascii.eqb x d = false.
Proof. intros H H'. apply Ascii.eqb_neq. intros ->. congruence. Qed.

Lemma chars_str l : chars (str l) = l.
Proof. unfold chars, str. apply list_ascii_of_string_of_list_ascii. Qed.

Lemma split_eins_one l out : plain l -> forall cur, split_eins (l ++ chars "->" ++ out) cur [] = ([rev cur ++ l], out).
Proof.
  induction l as [|x l IH]; intros H cur.
  - cbn. rewrite app_nil_r. reflexivity.
  - apply plain_cons in H as [Hx H]. cbn [app split_eins].
    rewrite (lower_neq x ","%char Hx eq_refl), (lower_neq x "-"%char Hx eq_refl). rewrite IH by exact H.
    cbn [rev]. rewrite <- app_assoc. reflexivity.
Qed.
Lemma parse_eins_one l out : plain l -> parse_eins (str (l ++ chars "->" ++ out)) = ([l], out).
Proof.
  intros H. unfold parse_eins. change (list_ascii_of_string (str (l ++ chars "->" ++ out))) with (chars (str (l ++ chars "->" ++ out))).
  rewrite chars_str, split_eins_one by exact H. reflexivity.
Qed.

(** ** einsum as a permutation of axes *)
Lemma elook_app c e e' : elook c (e ++ e') = match elook c e with Some n => Some n | None => elook c e' end.
Proof. induction e as [|[d n] e IH]; [reflexivity|]. cbn [app elook]. destruct (Ascii.eqb c d); [reflexivity|exact IH]. Qed.
Lemma elook_combine_notin c l : forall v, ~ In c l -> elook c (combine l v) = None.
Proof.
  induction l as [|x l IH]; intros [|n v] H; try reflexivity. cbn [combine elook].
  destruct (Ascii.eqb_spec c x) as [->|]; [exfalso; apply H; left; reflexivity|]. apply IH. intros HH. apply H. right. exact HH.
Qed.
Lemma elook_combine_map c l (f : ascii -> nat) : In c l -> elook c (combine l (map f l)) = Some (f c).
Proof.
  induction l as [|x l IH]; intros H; [destruct H|]. cbn [map combine elook].
  destruct (Ascii.eqb_spec c x) as [->|Hne]; [reflexivity|]. apply IH. destruct H as [H|H]; [congruence|exact H].
Qed.
Lemma add_labels_nodup l : forall sh e, NoDup l -> List.length sh = List.length l ->
  (forall x, In x l -> elook x e = None) -> add_labels l sh e = Some (e ++ combine l sh).
Proof.
  induction l as [|x l IH]; intros [|d sh] e Hnd Hn He; try discriminate; [cbn; rewrite app_nil_r; reflexivity|].
  inversion Hnd; subst. cbn [add_labels]. rewrite He by (left; reflexivity).
  rewrite IH; [rewrite <- app_assoc; reflexivity|assumption|cbn in Hn; lia|].
  intros y Hy. rewrite elook_app, (He y) by (right; exact Hy). cbn [elook].
  destruct (Ascii.eqb_spec y x) as [->|]; [contradiction|reflexivity].
Qed.
Lemma mapopt_map {A B} (f : A -> option B) (g : A -> B) l : (forall x, In x l -> f x = Some (g x)) -> mapopt f l = Some (map g l).
Proof.
  induction l as [|x l IH]; intros H; [reflexivity|]. cbn [mapopt map]. rewrite H by (left; reflexivity).
  rewrite IH by (intros; apply H; right; assumption). reflexivity.
Qed.
Lemma inlabels_In c l : inlabels c l = true <-> In c l.
Proof. apply inb_In. Qed.
Lemma filter_none {A} (p : A -> bool) l : (forall x, In x l -> p x = false) -> filter p l = [].
Proof. induction l as [|x l IH]; intros H; [reflexivity|]. cbn [filter]. rewrite H by (left; reflexivity). apply IH. intros; apply H; right; assumption. Qed.
Section EinsPerm.
  Context {S : sops}.
  Lemma einsum_perm (T : tensor S) (size : ascii -> nat) ls out : plain ls -> NoDup ls -> Permutation ls out ->
    shp T = map size ls ->
    exists t, einsum (str (ls ++ chars "->" ++ out)) [T] = Ok t /\ shp t = map size out /\
      forall sg, within_sizes size sg ls -> get t (map sg out) = get T (map sg ls).
  Proof.
    intros Hp Hnd Hperm HT. unfold einsum. rewrite parse_eins_one by exact Hp. cbn [add_ops]. rewrite HT.
    rewrite add_labels_nodup; [|exact Hnd|apply map_length|reflexivity]. cbn [app].
    rewrite (mapopt_map _ size).
    2:{ intros x Hx. apply elook_combine_map. apply (Permutation_in _ (Permutation_sym Hperm)). exact Hx. }
    rewrite filter_none.
    2:{ intros [x n] Hx. apply in_combine_l in Hx. cbn [fst]. apply negb_false_iff, inlabels_In.
        apply (Permutation_in _ Hperm). exact Hx. }
    eexists. split; [reflexivity|]. split; [reflexivity|]. intros sg Hsg. cbn [get sumover evalops]. unfold eval1. f_equal.
    rewrite HT. assert (G : forall l, incl l ls -> map2 (fun c d => bidx d match elook c (combine out (map sg out)) with Some i => i | None => 0 end) l (map size l) = map sg l).
    { induction l as [|x l IH]; intros Hi; [reflexivity|]. cbn [map map2].
      assert (Hx : In x ls) by (apply Hi; left; reflexivity).
      rewrite elook_combine_map by (apply (Permutation_in _ Hperm); exact Hx).
      rewrite bidx_valid by (apply Hsg; exact Hx). rewrite IH by (intros y Hy; apply Hi; right; exact Hy). reflexivity. }
    apply G. intros x Hx; exact Hx.
  Qed.
End EinsPerm.

(** ** positions *)
Lemma volume_iprod l : volume l = iprod l.
Proof.
  unfold volume. assert (G : forall l a, fold_left Nat.mul l a = a * iprod l).
  { clear l. induction l as [|x l IH]; intros a; [cbn; lia|]. cbn [fold_left]. rewrite IH. change (iprod (x :: l)) with (x * iprod l). lia. }
  rewrite G. lia.
Qed.
Lemma position_ravel sh : forall idx, List.length idx = List.length sh -> position sh idx = ravel sh idx.
Proof.
  assert (G : forall sh idx a, List.length idx = List.length sh -> fold_left (fun acc p => acc * fst p + snd p) (combine sh idx) a = a * iprod sh + ravel sh idx).
  { clear. induction sh as [|x sh IH]; intros [|i idx] a H; try discriminate; [cbn; lia|].
    cbn [combine fold_left fst snd ravel]. rewrite IH by (cbn in H; lia). change (iprod (x :: sh)) with (x * iprod sh). lia. }
  intros idx H. unfold position. rewrite G by exact H. lia.
Qed.
Lemma valid_map (size sg : ascii -> nat) l : within_sizes size sg l -> valid (map size l) (map sg l).
Proof.
  induction l as [|x l IH]; intros H; [constructor|]. cbn [map]. constructor; [apply H; left; reflexivity|].
  apply IH. intros y Hy. apply H. right. exact Hy.
Qed.
Lemma upd_same f c n : upd f c n c = n.
Proof. unfold upd. rewrite Ascii.eqb_refl. reflexivity. Qed.
Lemma upd_other f c n x : x <> c -> upd f c n x = f x.
Proof. intros H. unfold upd. apply Ascii.eqb_neq in H. rewrite H. reflexivity. Qed.
Lemma map_upd f c n l : ~ In c l -> map (upd f c n) l = map f l.
Proof. intros H. apply map_ext_in. intros x Hx. apply upd_other. intros ->. contradiction. Qed.
Lemma within_upd size sg c d p l : within_sizes size sg l -> p < d -> within_sizes (upd size c d) (upd sg c p) (c :: l).
Proof.
  intros H Hp x Hx. unfold upd. destruct (Ascii.eqb_spec x c) as [->|Hne]; [exact Hp|].
  apply H. destruct Hx as [Hx|Hx]; [congruence|exact Hx].
Qed.

(** ** views between tensors and matrices *)
Section Views.
  Context {S : sops}.
  Lemma view_matrix (t : tensor S) ls rs : shp t = ls ++ rs ->
    exists m, view t [iprod ls; iprod rs] = Ok m /\ shp m = [iprod ls; iprod rs] /\
      forall x y, valid ls x -> valid rs y -> get m [ravel ls x; ravel rs y] = get t (x ++ y).
  Proof.
    intros Ht. unfold view. rewrite Ht. replace (iprod [iprod ls; iprod rs]) with (iprod ls * iprod rs) by (cbn; lia).
    rewrite iprod_app, Nat.eqb_refl. eexists. split; [reflexivity|]. split; [reflexivity|]. intros x y Hx Hy. cbn [get]. f_equal.
    replace (ravel [iprod ls; iprod rs] [ravel ls x; ravel rs y]) with (ravel (ls ++ rs) (x ++ y)).
    - apply unravel_ravel. apply valid_app; assumption.
    - rewrite ravel_app by (apply valid_length; exact Hx). cbn [ravel]. cbn. lia.
  Qed.
  Lemma view_left (m : tensor S) ls d : shp m = [iprod ls; d] ->
    exists t, view m (ls ++ [d]) = Ok t /\ shp t = ls ++ [d] /\
      forall x p, valid ls x -> p < d -> get t (x ++ [p]) = get m [ravel ls x; p].
  Proof.
    intros Hm. unfold view. rewrite Hm, iprod_app. replace (iprod [iprod ls; d]) with (iprod ls * iprod [d]) by (cbn; lia).
    rewrite Nat.eqb_refl. eexists. split; [reflexivity|]. split; [reflexivity|]. intros x p Hx Hp. cbn [get]. f_equal.
    rewrite ravel_app by (apply valid_length; exact Hx).
    replace (ravel ls x * iprod [d] + ravel [d] [p]) with (ravel [iprod ls; d] [ravel ls x; p]) by (cbn; lia).
    apply unravel_ravel. apply valid_2. split; [apply ravel_lt; exact Hx|exact Hp].
  Qed.
  Lemma view_right (m : tensor S) rs d : shp m = [d; iprod rs] ->
    exists t, view m (d :: rs) = Ok t /\ shp t = d :: rs /\
      forall y p, valid rs y -> p < d -> get t (p :: y) = get m [p; ravel rs y].
  Proof.
    intros Hm. unfold view. rewrite Hm. replace (iprod [d; iprod rs]) with (iprod (d :: rs)) by (change (d * iprod rs = d * (iprod rs * 1)); rewrite Nat.mul_1_r; reflexivity).
    rewrite Nat.eqb_refl. eexists. split; [reflexivity|]. split; [reflexivity|]. intros y p Hy Hp. cbn [get]. f_equal.
    replace (ravel (d :: rs) (p :: y)) with (ravel [d; iprod rs] [p; ravel rs y]) by (change (p * (iprod rs * 1) + (ravel rs y * 1 + 0) = p * iprod rs + ravel rs y); lia).
    apply unravel_ravel. apply valid_2. split; [exact Hp|apply ravel_lt; exact Hy].
  Qed.
End Views.

(** ** sorting and counting *)
Lemma sort_sorted l : (forall p q, p <= q -> q < List.length l -> (nth q l 0 <= nth p l 0)%R) -> sort_desc l = l.
Proof.
  induction l as [|x l IH]; intros H; [reflexivity|]. cbn [sort_desc fold_right]. fold (sort_desc l). rewrite IH.
  2:{ intros p q Hpq Hq. apply (H (S p) (S q)); cbn [List.length]; lia. }
  destruct l as [|y l]; [reflexivity|]. cbn [insert_desc]. destruct (Rle_dec y x) as [|Hn]; [reflexivity|].
  exfalso. apply Hn. apply (H 0 1); cbn; lia.
Qed.
Lemma vec_list_length t n : shp t = [n] -> List.length (vec_list t) = n.
Proof. intros H. unfold vec_list. rewrite map_length, seq_length, H. reflexivity. Qed.
Lemma vec_list_nth t n p : shp t = [n] -> p < n -> nth p (vec_list t) 0%R = get t [p].
Proof.
  intros H Hp. unfold vec_list. rewrite H. cbn [nth].
  rewrite (nth_indep _ 0%R (get t [0])) by (rewrite map_length, seq_length; exact Hp).
  rewrite (map_nth (fun k => get t [k])). rewrite seq_nth by exact Hp. reflexivity.
Qed.
Lemma list_vec_get l p : get (list_vec l) [p] = nth p l 0%R.
Proof. reflexivity. Qed.
(** number of leading entries >= cutoff *)
Fixpoint lead (cutoff : R) (f : nat -> R) (n : nat) : nat :=
  match n with 0 => 0 | S m => if Rlt_dec (f 0) cutoff then 0 else S (lead cutoff (fun k => f (S k)) m) end.
Lemma count_above_lead cutoff l : count_above cutoff l = lead cutoff (fun p => nth p l 0%R) (List.length l).
Proof. induction l as [|x l IH]; [reflexivity|]. cbn [count_above List.length lead nth]. destruct (Rlt_dec x cutoff); [reflexivity|]. rewrite IH. reflexivity. Qed.
Lemma lead_ext cutoff n : forall f g, (forall p, p < n -> f p = g p) -> lead cutoff f n = lead cutoff g n.
Proof. induction n as [|n IH]; intros f g H; [reflexivity|]. cbn [lead]. rewrite H by lia. rewrite (IH (fun k => f (S k)) (fun k => g (S k))) by (intros; apply H; lia). reflexivity. Qed.
Lemma lead_le cutoff n : forall f, lead cutoff f n <= n.
Proof. induction n as [|n IH]; intros f; [cbn; lia|]. cbn [lead]. destruct (Rlt_dec _ _); [lia|]. specialize (IH (fun k => f (S k))). lia. Qed.
Lemma count_ge_S cutoff n : forall f, count_ge cutoff f (S n) = (if Rle_dec cutoff (f 0) then 1 else 0) + count_ge cutoff (fun k => f (S k)) n.
Proof.
  induction n as [|n IH]; intros f; [cbn; lia|].
  change (count_ge cutoff f (S (S n))) with (count_ge cutoff f (S n) + if Rle_dec cutoff (f (S n)) then 1 else 0). rewrite IH. cbn [count_ge]. lia.
Qed.
Lemma count_ge_none cutoff n : forall f, (forall p, p < n -> (f p < cutoff)%R) -> count_ge cutoff f n = 0.
Proof. induction n as [|n IH]; intros f H; [reflexivity|]. cbn [count_ge]. rewrite IH by (intros; apply H; lia). destruct (Rle_dec cutoff (f n)); [specialize (H n ltac:(lia)); lra|reflexivity]. Qed.
Lemma lead_count cutoff n : forall f, (forall p q, p <= q -> q < n -> (f q <= f p)%R) -> lead cutoff f n = count_ge cutoff f n.
Proof.
  induction n as [|n IH]; intros f H; [reflexivity|]. rewrite count_ge_S. cbn [lead].
  destruct (Rlt_dec (f 0) cutoff) as [Hlt|Hge]; destruct (Rle_dec cutoff (f 0)) as [Hle|Hnle]; try lra.
  - rewrite count_ge_none; [reflexivity|]. intros p Hp. specialize (H 0 (S p) ltac:(lia) ltac:(lia)). lra.
  - rewrite IH; [reflexivity|]. intros p q Hpq Hq. apply H; lia.
Qed.
Lemma count_ge_le cutoff f n : count_ge cutoff f n <= n.
Proof. induction n as [|n IH]; [cbn; lia|]. cbn [count_ge]. destruct (Rle_dec _ _); lia. Qed.
Lemma count_ge_ext cutoff f g n : (forall p, p < n -> f p = g p) -> count_ge cutoff f n = count_ge cutoff g n.
Proof. induction n as [|n IH]; intros H; [reflexivity|]. cbn [count_ge]. rewrite IH, H by (auto; intros; apply H; lia). reflexivity. Qed.
Lemma count_ge_app cutoff f n m : count_ge cutoff f (n + m) = count_ge cutoff f n + count_ge cutoff (fun p => f (n + p)) m.
Proof. induction m as [|m IH]; [rewrite Nat.add_0_r; cbn; lia|]. rewrite Nat.add_succ_r. cbn [count_ge]. rewrite IH. lia. Qed.

(** ** parsing *)
Lemma split_arrow_plain l r : plain l -> forall cur, (match r with ">"%char :: _ => False | _ => True end) ->
  split_arrow (l ++ chars "->" ++ r) cur = (rev cur ++ l) :: split_arrow r [].
Proof.
  induction l as [|x l IH]; intros H cur Hr.
  - cbn. rewrite app_nil_r. reflexivity.
  - apply plain_cons in H as [Hx H]. cbn [app].
    destruct (l ++ chars "->" ++ r) as [|y rest] eqn:E; [destruct l; discriminate|].
    change (split_arrow (x :: y :: rest) cur) with (if Ascii.eqb x "-"%char && Ascii.eqb y ">"%char then rev cur :: split_arrow rest [] else split_arrow (y :: rest) (x :: cur)).
    rewrite (lower_neq x "-"%char Hx eq_refl). cbn [andb].
    rewrite IH by assumption. cbn [rev]. rewrite <- app_assoc. reflexivity.
Qed.
Lemma split_arrow_none l : forallb (fun c => negb (Ascii.eqb c "-"%char)) l = true -> forall cur, split_arrow l cur = [rev cur ++ l].
Proof.
  induction l as [|x l IH]; intros H cur; [cbn; rewrite app_nil_r; reflexivity|].
  cbn [forallb] in H. apply andb_prop in H as [Hx H]. apply negb_true_iff in Hx. destruct l as [|y l]; [reflexivity|].
  change (split_arrow (x :: y :: l) cur) with (if Ascii.eqb x "-"%char && Ascii.eqb y ">"%char then rev cur :: split_arrow l [] else split_arrow (y :: l) (x :: cur)).
  rewrite Hx. cbn [andb]. rewrite IH by exact H. cbn [rev]. rewrite <- app_assoc. reflexivity.
Qed.
Lemma split_comma_two l r : plain l -> plain r -> forall cur, split_comma (l ++ chars "," ++ r) cur = [rev cur ++ l; r].
Proof.
  intros Hl Hr. assert (N : forall cur, split_comma r cur = [rev cur ++ r]).
  { clear Hl. induction r as [|x r IH]; intros cur; [cbn; rewrite app_nil_r; reflexivity|].
    apply plain_cons in Hr as [Hx Hr]. cbn [split_comma]. rewrite (lower_neq x ","%char Hx eq_refl). rewrite IH by exact Hr. cbn [rev]. rewrite <- app_assoc. reflexivity. }
  induction l as [|x l IH]; intros cur.
  - cbn. rewrite app_nil_r. rewrite N. reflexivity.
  - apply plain_cons in Hl as [Hx Hl]. cbn [app split_comma]. rewrite (lower_neq x ","%char Hx eq_refl), IH by exact Hl. cbn [rev]. rewrite <- app_assoc. reflexivity.
Qed.
Lemma parse_svd_ok s i l r : plain i -> plain l -> plain r ->
  filter (fun c => negb (is_space c)) (chars s) = i ++ chars "->" ++ l ++ chars "," ++ r -> parse_svd s = Ok (i, l, r).
Proof.
  intros Hi Hl Hr E. unfold parse_svd. rewrite E. rewrite split_arrow_plain.
  - rewrite split_arrow_none.
    + cbn [rev app]. rewrite split_comma_two by assumption. reflexivity.
    + assert (G : forall l, plain l -> forallb (fun c => negb (Ascii.eqb c "-"%char)) l = true).
      { clear. induction l as [|x l IH]; intros H; [reflexivity|]. apply plain_cons in H as [Hx H]. cbn [forallb]. rewrite (lower_neq x "-"%char Hx eq_refl), IH by exact H. reflexivity. }
      rewrite !forallb_app, (G l Hl), (G r Hr). reflexivity.
  - exact Hi.
  - destruct l as [|x l]; [exact I|]. apply plain_cons in Hl as [Hx _]. cbn. destruct (Ascii.eqb_spec x ">"%char) as [->|Hne]; [discriminate Hx|].
    destruct x as [[] [] [] [] [] [] [] []]; try exact I. apply Hne. reflexivity.
Qed.
Lemma set_len_nodup l : NoDup l -> set_len l = List.length l.
Proof. intros H. unfold set_len. rewrite nodup_fixed_point by exact H. reflexivity. Qed.
Lemma without_notin c l : ~ In c l -> without c l = l.
Proof.
  induction l as [|x l IH]; intros H; [reflexivity|]. unfold without in *. cbn [filter].
  destruct (Ascii.eqb_spec x c) as [->|]; [exfalso; apply H; left; reflexivity|]. cbn [negb]. rewrite IH; [reflexivity|]. intros HH; apply H; right; exact HH.
Qed.
Lemma without_perm c l lp : Permutation l (c :: lp) -> NoDup l -> Permutation (without c l) lp /\ ~ In c (without c l).
Proof.
  intros H Hnd. assert (Hni : ~ In c (without c l)).
  { unfold without. rewrite filter_In. intros [_ X]. rewrite Ascii.eqb_refl in X. discriminate. }
  split; [|exact Hni]. assert (Hc : NoDup (c :: lp)) by (apply (Permutation_NoDup H Hnd)). inversion Hc; subst.
  apply NoDup_Permutation; [apply NoDup_filter; exact Hnd|assumption|]. intros x. unfold without. rewrite filter_In. split.
  - intros [Hx Hn]. apply (Permutation_in _ H) in Hx as [<-|Hx]; [rewrite Ascii.eqb_refl in Hn; discriminate|exact Hx].
  - intros Hx. split; [apply (Permutation_in _ (Permutation_sym H)); right; exact Hx|].
    destruct (Ascii.eqb_spec x c) as [->|]; [contradiction|reflexivity].
Qed.
Lemma without_remove c l : without c l = remove ascii_dec c l.
Proof.
  induction l as [|x l IH]; [reflexivity|]. unfold without in *. cbn [filter remove].
  destruct (ascii_dec c x) as [->|Hne]; [rewrite Ascii.eqb_refl; exact IH|].
  destruct (Ascii.eqb_spec x c) as [->|]; [contradiction|]. cbn [negb]. rewrite IH. reflexivity.
Qed.
Lemma filter_single (p : ascii -> bool) l c : NoDup l -> In c l -> p c = true -> (forall x, In x l -> p x = true -> x = c) -> filter p l = [c].
Proof.
  induction l as [|x l IH]; intros Hnd Hin Hp Hu; [destruct Hin|]. inversion Hnd; subst. cbn [filter].
  destruct Hin as [->|Hin].
  - rewrite Hp. f_equal. apply filter_none. intros y Hy. destruct (p y) eqn:E; [|reflexivity]. exfalso. apply Hu in E; [subst; contradiction|right; exact Hy].
  - destruct (p x) eqn:E; [exfalso; apply Hu in E; [subst; contradiction|left; reflexivity]|]. apply IH; auto. intros y Hy. apply Hu. right; exact Hy.
Qed.
Lemma list_eqb_nat a b : list_eqb (map nat_of_ascii a) (map nat_of_ascii b) = true <-> a = b.
Proof.
  rewrite list_eqb_eq. split; [|intros ->; reflexivity]. revert b. induction a as [|x a IH]; intros [|y b] H; try discriminate; [reflexivity|].
  cbn [map] in H. injection H as H1 H2. f_equal; [|apply IH; exact H2].
  rewrite <- (ascii_nat_embedding x), <- (ascii_nat_embedding y), H1. reflexivity.
Qed.
Lemma remove_perm c l : In c l -> NoDup l -> Permutation l (c :: remove ascii_dec c l).
Proof.
  intros Hc Hnd. apply NoDup_Permutation; [exact Hnd| |].
  - constructor; [apply remove_In|]. rewrite <- without_remove. apply NoDup_filter. exact Hnd.
  - intros x. split.
    + intros Hx. destruct (ascii_dec x c) as [->|Hne]; [left; reflexivity|right; apply in_in_remove; assumption].
    + intros [<-|Hx]; [exact Hc|]. apply in_remove in Hx. tauto.
Qed.
Section SvdMats.
  Lemma eins_l_lr (s r : tensor R_ops) d n : shp s = [d] -> shp r = [d; n] ->
    exists t, einsum "l,lr->lr" [s; r] = Ok t /\ shp t = [d; n] /\
      forall p j, p < d -> j < n -> get t [p; j] = (get s [p] * get r [p; j])%R.
  Proof. intros Hs Hr. eins_open. eexists. split; [reflexivity|]. split; [reflexivity|]. intros. eins_get. eins_sum. Qed.
  Lemma eins_lr_r (s l : tensor R_ops) d m : shp s = [d] -> shp l = [m; d] ->
    exists t, einsum "lr,r->lr" [l; s] = Ok t /\ shp t = [m; d] /\
      forall i p, i < m -> p < d -> get t [i; p] = (get l [i; p] * get s [p])%R.
  Proof. intros Hs Hl. eins_open. eexists. split; [reflexivity|]. split; [reflexivity|]. intros. eins_get. eins_sum. Qed.
End SvdMats.

Section SvdFlex.
  Variable svd : tensor R_ops -> tensor R_ops * tensor R_ops * tensor R_ops.
  Variables (T : tensor R_ops) (size : ascii -> nat) (init left right : list ascii) (c : ascii) (svd_string : string).
  Hypothesis Hpi : plain init. Hypothesis Hpl : plain left. Hypothesis Hpr : plain right.
  Hypothesis Hstr : filter (fun x => negb (is_space x)) (chars svd_string) = init ++ chars "->" ++ left ++ chars "," ++ right.
  Hypothesis Hni : NoDup init. Hypothesis Hnl : NoDup left. Hypothesis Hnr : NoDup right.
  Hypothesis Hcl : In c left. Hypothesis Hcr : In c right. Hypothesis Hci : ~ In c init.
  Definition lp := remove ascii_dec c left.
  Definition rp := remove ascii_dec c right.
  Hypothesis Hpart : Permutation init (lp ++ rp).
  Hypothesis HT : shp T = map size init.
  Definition nrows := volume (map size lp).
  Definition ncols := volume (map size rp).
  Definition nsv := Nat.min nrows ncols.
  Variables U0 S0 V0 : tensor R_ops.
  Hypothesis Hsvd : forall A, matrix_of size T init lp rp A -> svd A = (U0, S0, V0).
  Hypothesis HU : shp U0 = [nrows; nsv]. Hypothesis HS : shp S0 = [nsv]. Hypothesis HV : shp V0 = [ncols; nsv].
  Hypothesis Hdesc : forall p q, p <= q -> q < nsv -> (get S0 [q] <= get S0 [p])%R.
  Variables (max_D : option nat) (cutoff : R) (sv_right : bool) (sv_len : option nat).
  (** the length of the spectrum that is looked at, and the spectrum padded with zeros *)
  Definition ncut := match max_D with Some (S d) => S d | _ => nsv end.
  Definition padded (p : nat) : R := if p <? nsv then get S0 [p] else 0%R.
  Definition rank := lead cutoff padded ncut.
  Definition newdim := match max_D with Some (S d) => S d | _ => rank end.
  Hypothesis Hsvlen : match sv_len with None => True | Some n => n = ncut end.
  Definition row (sg : ascii -> nat) := position (map size lp) (map sg lp).
  Definition col (sg : ascii -> nat) := position (map size rp) (map sg rp).

  Lemma labels_ok : forallb islower (init ++ left ++ right) = true /\
    set_len (init ++ left ++ right) = List.length init + 1 /\
    set_len init + set_len left + set_len right = List.length init + List.length left + List.length right.
  Proof.
    pose proof (remove_perm c left Hcl Hnl) as Pl. pose proof (remove_perm c right Hcr Hnr) as Pr. fold lp in Pl. fold rp in Pr.
    split; [|split].
    - rewrite !forallb_app. unfold plain in *. rewrite Hpi, Hpl, Hpr. reflexivity.
    - unfold set_len. replace (List.length init + 1) with (List.length (c :: init)) by (cbn; lia).
      apply Permutation_length. apply NoDup_Permutation; [apply NoDup_nodup|constructor; assumption|].
      intros x. rewrite nodup_In, !in_app_iff. split.
      + intros [H|[H|H]]; [right; exact H| |].
        * apply (Permutation_in _ Pl) in H as [<-|H]; [left; reflexivity|right; apply (Permutation_in _ (Permutation_sym Hpart)), in_or_app; left; exact H].
        * apply (Permutation_in _ Pr) in H as [<-|H]; [left; reflexivity|right; apply (Permutation_in _ (Permutation_sym Hpart)), in_or_app; right; exact H].
      + intros [<-|H]; [right; left; exact Hcl|left; exact H].
    - rewrite !set_len_nodup by assumption. reflexivity.
  Qed.
  Lemma bond_found : filter (fun x => inb x right) left = [c].
  Proof.
    apply filter_single; [exact Hnl|exact Hcl|apply inb_In; exact Hcr|]. intros x Hx Hr. apply inb_In in Hr.
    destruct (ascii_dec x c) as [->|Hne]; [reflexivity|]. exfalso.
    assert (H : NoDup (lp ++ rp)) by (apply (Permutation_NoDup Hpart Hni)).
    assert (Hx1 : In x lp) by (apply in_in_remove; assumption). assert (Hx2 : In x rp) by (apply in_in_remove; assumption).
    clear -H Hx1 Hx2. induction lp as [|y l IH]; [destruct Hx1|]. inversion H; subst. destruct Hx1 as [->|Hx1].
    - apply H2. apply in_or_app. right. exact Hx2.
    - apply IH; assumption.
  Qed.
  Lemma Hclp : ~ In c lp. Proof. apply remove_In. Qed.
  Lemma Hcrp : ~ In c rp. Proof. apply remove_In. Qed.
  Lemma incl_lp x : In x lp -> In x init.
  Proof. intros H. apply (Permutation_in _ (Permutation_sym Hpart)), in_or_app. left. exact H. Qed.
  Lemma incl_rp x : In x rp -> In x init.
  Proof. intros H. apply (Permutation_in _ (Permutation_sym Hpart)), in_or_app. right. exact H. Qed.
  Lemma rank_le : rank <= ncut. Proof. apply lead_le. Qed.
  Lemma plain_lp : plain lp.
  Proof. unfold plain. apply forallb_forall. intros x Hx. apply incl_lp in Hx. unfold plain in Hpi. rewrite forallb_forall in Hpi. auto. Qed.
  Lemma plain_rp : plain rp.
  Proof. unfold plain. apply forallb_forall. intros x Hx. apply incl_rp in Hx. unfold plain in Hpi. rewrite forallb_forall in Hpi. auto. Qed.
  Lemma plain_c : islower c = true.
  Proof. unfold plain in Hpl. rewrite forallb_forall in Hpl. auto. Qed.
  Lemma nd_parts : NoDup lp /\ NoDup rp.
  Proof. unfold lp, rp. rewrite <- !without_remove. split; apply NoDup_filter; assumption. Qed.

  (** the matrix that is decomposed *)
  Lemma svd_matrix : exists t m, einsum (str (init ++ chars "->" ++ lp ++ rp)) [T] = Ok t /\
    shp t = map size lp ++ map size rp /\
    view t [iprod (map size lp); iprod (map size rp)] = Ok m /\ svd m = (U0, S0, V0).
  Proof.
    destruct (einsum_perm T size init (lp ++ rp) Hpi Hni Hpart HT) as (t & Et & Hs & Hg). rewrite map_app in Hs.
    destruct (view_matrix t _ _ Hs) as (m & Em & Hm & Hmg). exists t, m. split; [exact Et|]. split; [exact Hs|]. split; [exact Em|].
    apply Hsvd. split; [rewrite !volume_iprod; exact Hm|]. intros sg Hsg.
    assert (H1 : within_sizes size sg lp) by (intros x Hx; apply Hsg, incl_lp, Hx).
    assert (H2 : within_sizes size sg rp) by (intros x Hx; apply Hsg, incl_rp, Hx).
    rewrite !position_ravel by (rewrite !map_length; reflexivity).
    rewrite Hmg by (apply valid_map; assumption). rewrite <- map_app. apply Hg. exact Hsg.
  Qed.

  (** left and right factors of the truncated decomposition *)
  Definition lval (i p : nat) : R := if p <? Nat.min rank nsv then (if sv_right then get U0 [i; p] else get U0 [i; p] * get S0 [p])%R else 0%R.
  Definition rval (p j : nat) : R := if p <? Nat.min rank nsv then (if sv_right then get S0 [p] * get V0 [j; p] else get V0 [j; p])%R else 0%R.
  Lemma ltb_min a b x : (x <? Nat.min a b) = (x <? a) && (x <? b).
  Proof. destruct (Nat.ltb_spec x a), (Nat.ltb_spec x b), (Nat.ltb_spec x (Nat.min a b)); cbn; try reflexivity; lia. Qed.

  Lemma svd_flex_spec :
    (rank = 0 -> svd_flex svd T svd_string max_D cutoff sv_right sv_len = Err RuntimeError) /\
    (rank <> 0 -> exists Lt Rt sv, svd_flex svd T svd_string max_D cutoff sv_right sv_len = Ok (Lt, Rt, rank, sv) /\
       shp Lt = map (upd size c newdim) left /\ shp Rt = map (upd size c newdim) right /\
       (forall sg p, within_sizes size sg init -> p < newdim -> get Lt (map (upd sg c p) left) = lval (row sg) p) /\
       (forall sg p, within_sizes size sg init -> p < newdim -> get Rt (map (upd sg c p) right) = rval p (col sg)) /\
       match sv_len, sv with
       | None, None => True
       | Some n, Some s => shp s = [ncut] /\ forall p, p < ncut -> get s [p] = padded p
       | _, _ => False
       end).
  Proof.
    set (D := match max_D with Some 0 => None | m => m end).
    assert (HD : match D with Some d => ncut = d /\ newdim = d | None => ncut = nsv /\ newdim = rank end).
    { unfold D, ncut, newdim. destruct max_D as [[|d]|]; auto. }
    destruct labels_ok as (L1 & L2 & L3). destruct svd_matrix as (t & m & Et & Hst & Em & Esvd).
    (* the resized factors *)
    set (S1 := list_vec (sort_desc (vec_list S0))).
    assert (HS1 : shp S1 = [nsv] /\ forall p, get S1 [p] = if p <? nsv then get S0 [p] else 0%R).
    { unfold S1. rewrite sort_sorted.
      2:{ rewrite (vec_list_length S0 nsv HS). intros p q Hpq Hq. rewrite !(vec_list_nth S0 nsv) by (auto; lia). apply Hdesc; assumption. }
      cbn [shp list_vec]. rewrite (vec_list_length S0 nsv HS). split; [reflexivity|]. intros p. rewrite list_vec_get.
      destruct (Nat.ltb_spec p nsv); [apply (vec_list_nth S0 nsv); assumption|]. apply nth_overflow. rewrite (vec_list_length S0 nsv HS). lia. }
    set (Vt := transE V0).
    assert (HVt : shp Vt = [nsv; ncols] /\ forall p j, get Vt [p; j] = get V0 [j; p]).
    { unfold Vt, transE. cbn [shp get]. rewrite HV. split; reflexivity. }
    set (S2 := match D with Some d => cut_vec S1 d | None => S1 end).
    set (A2 := match D with Some d => cut_cols U0 d | None => U0 end).
    set (B2 := match D with Some d => cut_rows Vt d | None => Vt end).
    assert (HS2 : shp S2 = [ncut] /\ forall p, p < ncut -> get S2 [p] = padded p).
    { unfold S2. destruct HS1 as [E1 E2]. destruct D as [d|]; destruct HD as [-> _].
      - split; [reflexivity|]. intros p Hp. cbn [cut_vec get nth]. rewrite E1. cbn [nth]. unfold padded. destruct (Nat.ltb_spec p nsv) as [Hlt|]; [|reflexivity].
        rewrite E2. apply Nat.ltb_lt in Hlt. rewrite Hlt. reflexivity.
      - split; [exact E1|]. intros p Hp. apply E2. }
    assert (HA2 : shp A2 = [nrows; ncut] /\ forall i p, p < ncut -> get A2 [i; p] = if p <? nsv then get U0 [i; p] else 0%R).
    { unfold A2. destruct D as [d|]; destruct HD as [-> _].
      - unfold cut_cols. cbn [shp get]. rewrite HU. cbn [nth]. split; [reflexivity|]. intros i p Hp. reflexivity.
      - split; [exact HU|]. intros i p Hp. apply Nat.ltb_lt in Hp. rewrite Hp. reflexivity. }
    assert (HB2 : shp B2 = [ncut; ncols] /\ forall p j, p < ncut -> get B2 [p; j] = if p <? nsv then get V0 [j; p] else 0%R).
    { unfold B2. destruct HVt as [E1 E2]. destruct D as [d|]; destruct HD as [-> _].
      - unfold cut_rows. cbn [shp get]. rewrite E1. cbn [nth]. split; [reflexivity|]. intros p j Hp. rewrite E2. reflexivity.
      - split; [exact E1|]. intros p j Hp. rewrite E2. apply Nat.ltb_lt in Hp. rewrite Hp. reflexivity. }
    assert (Hrank : count_above cutoff (vec_list S2) = rank).
    { rewrite count_above_lead, (vec_list_length S2 ncut (proj1 HS2)). apply lead_ext. intros p Hp.
      rewrite (vec_list_nth S2 ncut) by (auto; apply HS2). apply HS2. exact Hp. }
    assert (Hsv : exists sv, (match sv_len with None => Ok None | Some n => if list_eqb (shp S2) [n] then Ok (Some S2) else Err TypeError end) = Ok sv /\
        match sv_len, sv with None, None => True | Some n, Some s => shp s = [ncut] /\ forall p, p < ncut -> get s [p] = padded p | _, _ => False end).
    { destruct sv_len as [n|]; [|exists None; auto]. rewrite Hsvlen, (proj1 HS2), list_eqb_refl. exists (Some S2). split; [reflexivity|]. exact HS2. }
    destruct Hsv as (sv & Esv & Hsv).
    (* common prefix *)
    assert (Pre : forall r, (
        (let truncation := count_above cutoff (vec_list S2) in
         if truncation =? 0 then Err RuntimeError
         else
          let '(d, S3, L3, R3) := match D with
                                  | Some d => (d, zero_rows S2 truncation, zero_cols A2 truncation, zero_rows B2 truncation)
                                  | None => (truncation, cut_vec S2 truncation, cut_cols A2 truncation, cut_rows B2 truncation)
                                  end in
          let* LR := (if sv_right
                      then let* r := einsum "l,lr->lr" [S3; R3] in Ok (L3, r)
                      else let* l := einsum "lr,r->lr" [L3; S3] in Ok (l, R3)) in
          let* lt := view (fst LR) (map size lp ++ [d]) in
          let* rt := view (snd LR) (d :: map size rp) in
          let* lt' := (if list_eqb (map nat_of_ascii left) (map nat_of_ascii (lp ++ [c])) then Ok lt
                       else einsum (str (lp ++ [c] ++ chars "->" ++ left)) [lt]) in
          let* rt' := (if list_eqb (map nat_of_ascii right) (map nat_of_ascii (c :: rp)) then Ok rt
                       else einsum (str ([c] ++ rp ++ chars "->" ++ right)) [rt]) in
          Ok (lt', rt', truncation, sv)) = r) -> svd_flex svd T svd_string max_D cutoff sv_right sv_len = r).
    { intros r Hr. rewrite <- Hr. unfold svd_flex. fold D. rewrite (parse_svd_ok svd_string init left right) by assumption. cbn [rbind].
      rewrite L1, L2, L3, !Nat.eqb_refl. cbn [assert_ rbind]. rewrite bond_found.
      rewrite !without_remove. fold lp. fold rp. rewrite Et. cbn [rbind]. rewrite Hst.
      replace (firstn (List.length lp) (map size lp ++ map size rp)) with (map size lp) by (rewrite <- (map_length size lp), firstn_app, Nat.sub_diag, firstn_all, firstn_O, app_nil_r; reflexivity).
      replace (skipn (List.length lp) (map size lp ++ map size rp)) with (map size rp) by (rewrite <- (map_length size lp), skipn_app, Nat.sub_diag, skipn_all; reflexivity).
      rewrite Em. cbn [rbind]. rewrite Esvd. fold S1. fold Vt.
      replace (match D with Some d => (cut_vec S1 d, cut_cols U0 d, cut_rows Vt d) | None => (S1, U0, Vt) end) with (S2, A2, B2) by (unfold S2, A2, B2; destruct D; reflexivity).
      rewrite Esv. cbn [rbind]. reflexivity. }
    split.
    - intros H0. apply Pre. rewrite Hrank, H0. reflexivity.
    - intros H0. 
      (* the truncated factors *)
      set (S3 := match D with Some d => zero_rows S2 rank | None => cut_vec S2 rank end).
      set (A3 := match D with Some d => zero_cols A2 rank | None => cut_cols A2 rank end).
      set (B3 := match D with Some d => zero_rows B2 rank | None => cut_rows B2 rank end).
      pose proof rank_le as Hrk.
      destruct HS2 as [ES2 GS2], HA2 as [EA2 GA2], HB2 as [EB2 GB2].
      assert (HS3 : shp S3 = [newdim] /\ forall p, p < newdim -> get S3 [p] = if p <? Nat.min rank nsv then get S0 [p] else 0%R).
      { unfold S3. destruct D as [d|]; destruct HD as [Hn1 Hn2].
        - cbn [zero_rows shp get nth]. rewrite ES2, Hn1, Hn2. split; [reflexivity|]. intros p Hp. rewrite ltb_min.
          destruct (p <? rank); [|reflexivity]. rewrite GS2 by lia. reflexivity.
        - cbn [cut_vec shp get nth]. rewrite ES2, Hn2. split; [reflexivity|]. intros p Hp. cbn [nth].
          assert (Hlt : (p <? ncut) = true) by (apply Nat.ltb_lt; lia). rewrite Hlt, GS2, ltb_min by lia.
          apply Nat.ltb_lt in Hp. rewrite Hp. reflexivity. }
      assert (HA3 : shp A3 = [nrows; newdim] /\ forall i p, p < newdim -> get A3 [i; p] = if p <? Nat.min rank nsv then get U0 [i; p] else 0%R).
      { unfold A3. destruct D as [d|]; destruct HD as [Hn1 Hn2].
        - cbn [zero_cols shp get nth]. rewrite EA2, Hn1, Hn2. split; [reflexivity|]. intros i p Hp. rewrite ltb_min.
          destruct (p <? rank); [|reflexivity]. rewrite GA2 by lia. reflexivity.
        - cbn [cut_cols shp get nth]. rewrite EA2, Hn2. split; [reflexivity|]. intros i p Hp. cbn [nth].
          assert (Hlt : (p <? ncut) = true) by (apply Nat.ltb_lt; lia). rewrite Hlt, GA2, ltb_min by lia.
          apply Nat.ltb_lt in Hp. rewrite Hp. reflexivity. }
      assert (HB3 : shp B3 = [newdim; ncols] /\ forall p j, p < newdim -> get B3 [p; j] = if p <? Nat.min rank nsv then get V0 [j; p] else 0%R).
      { unfold B3. destruct D as [d|]; destruct HD as [Hn1 Hn2].
        - cbn [zero_rows shp get nth]. rewrite EB2, Hn1, Hn2. split; [reflexivity|]. intros p j Hp. rewrite ltb_min.
          destruct (p <? rank); [|reflexivity]. rewrite GB2 by lia. reflexivity.
        - cbn [cut_rows shp get nth]. rewrite EB2, Hn2. split; [reflexivity|]. intros p j Hp. cbn [nth].
          assert (Hlt : (p <? ncut) = true) by (apply Nat.ltb_lt; lia). rewrite Hlt, GB2, ltb_min by lia.
          apply Nat.ltb_lt in Hp. rewrite Hp. reflexivity. }
      (* merge the singular values *)
      assert (HLR : exists LR, (if sv_right then let* r := einsum "l,lr->lr" [S3; B3] in Ok (A3, r) else let* l := einsum "lr,r->lr" [A3; S3] in Ok (l, B3)) = Ok LR /\
         shp (fst LR) = [nrows; newdim] /\ shp (snd LR) = [newdim; ncols] /\
         (forall i p, i < nrows -> p < newdim -> get (fst LR) [i; p] = lval i p) /\ (forall p j, p < newdim -> j < ncols -> get (snd LR) [p; j] = rval p j)).
      { destruct HS3 as [ES3 GS3], HA3 as [EA3 GA3], HB3 as [EB3 GB3]. unfold lval, rval. destruct sv_right.
        - destruct (eins_l_lr S3 B3 newdim ncols ES3 EB3) as (r & Er & Hr & Gr). exists (A3, r). rewrite Er. cbn [rbind fst snd].
          split; [reflexivity|]. split; [exact EA3|]. split; [exact Hr|]. split; [intros; apply GA3; assumption|].
          intros p j Hp Hj. rewrite Gr, GS3, GB3 by assumption. destruct (p <? Nat.min rank nsv); [reflexivity|lra].
        - destruct (eins_lr_r S3 A3 newdim nrows ES3 EA3) as (r & Er & Hr & Gr). exists (r, B3). rewrite Er. cbn [rbind fst snd].
          split; [reflexivity|]. split; [exact Hr|]. split; [exact EB3|]. split; [|intros; apply GB3; assumption].
          intros i p Hi Hp. rewrite Gr, GS3, GA3 by assumption. destruct (p <? Nat.min rank nsv); [reflexivity|lra]. }
      destruct HLR as (LR & ELR & HL1 & HL2 & GL1 & GL2).
      unfold nrows in HL1. rewrite volume_iprod in HL1. destruct (view_left (fst LR) (map size lp) newdim HL1) as (lt & Elt & Slt & Glt).
      unfold ncols in HL2. rewrite volume_iprod in HL2. destruct (view_right (snd LR) (map size rp) newdim HL2) as (rt & Ert & Srt & Grt).
      assert (Wl : forall sg, within_sizes size sg init -> within_sizes size sg lp) by (intros sg H x Hx; apply H, incl_lp, Hx).
      assert (Wr : forall sg, within_sizes size sg init -> within_sizes size sg rp) by (intros sg H x Hx; apply H, incl_rp, Hx).
      assert (Rl : forall sg, within_sizes size sg init -> row sg < nrows).
      { intros sg H. unfold row, nrows. rewrite volume_iprod, position_ravel by (rewrite !map_length; reflexivity). apply ravel_lt, valid_map, Wl, H. }
      assert (Rr : forall sg, within_sizes size sg init -> col sg < ncols).
      { intros sg H. unfold col, ncols. rewrite volume_iprod, position_ravel by (rewrite !map_length; reflexivity). apply ravel_lt, valid_map, Wr, H. }
      assert (GLt : forall sg p, within_sizes size sg init -> p < newdim -> get lt (map sg lp ++ [p]) = lval (row sg) p).
      { intros sg p H Hp. rewrite Glt by (auto; apply valid_map, Wl, H). rewrite <- GL1 by auto. unfold row. rewrite position_ravel by (rewrite !map_length; reflexivity). reflexivity. }
      assert (GRt : forall sg p, within_sizes size sg init -> p < newdim -> get rt (p :: map sg rp) = rval p (col sg)).
      { intros sg p H Hp. rewrite Grt by (auto; apply valid_map, Wr, H). rewrite <- GL2 by auto. unfold col. rewrite position_ravel by (rewrite !map_length; reflexivity). reflexivity. }
      (* final permutations *)
      assert (Sl : shp lt = map (upd size c newdim) (lp ++ [c])).
      { rewrite Slt, map_app, map_upd by apply Hclp. cbn [map]. rewrite upd_same. reflexivity. }
      assert (Sr : shp rt = map (upd size c newdim) (c :: rp)).
      { rewrite Srt. cbn [map]. rewrite upd_same, map_upd by apply Hcrp. reflexivity. }
      destruct nd_parts as [NDl NDr].
      assert (Lf : exists lt', (if list_eqb (map nat_of_ascii left) (map nat_of_ascii (lp ++ [c])) then Ok lt else einsum (str (lp ++ [c] ++ chars "->" ++ left)) [lt]) = Ok lt' /\
          shp lt' = map (upd size c newdim) left /\ forall sg p, within_sizes size sg init -> p < newdim -> get lt' (map (upd sg c p) left) = lval (row sg) p).
      { assert (E0 : forall sg p, map (upd sg c p) (lp ++ [c]) = map sg lp ++ [p]).
        { intros. rewrite map_app, map_upd by apply Hclp. cbn [map]. rewrite upd_same. reflexivity. }
        destruct (list_eqb (map nat_of_ascii left) (map nat_of_ascii (lp ++ [c]))) eqn:E.
        - apply list_eqb_nat in E. exists lt. split; [reflexivity|]. rewrite E. split; [exact Sl|]. intros sg p H Hp. rewrite E0. apply GLt; assumption.
        - destruct (einsum_perm lt (upd size c newdim) (lp ++ [c]) left) as (lt' & E1 & E2 & E3).
          + apply plain_app. split; [apply plain_lp|]. unfold plain. cbn. rewrite plain_c. reflexivity.
          + apply (Permutation_NoDup (Permutation_cons_append lp c)). constructor; [apply Hclp|exact NDl].
          + rewrite <- Permutation_cons_append. symmetry. apply remove_perm; assumption.
          + exact Sl.
          + rewrite <- app_assoc in E1. exists lt'. split; [exact E1|]. split; [exact E2|]. intros sg p H Hp. rewrite E3, E0.
            * apply GLt; assumption.
            * intros x Hx. apply (within_upd size sg c newdim p lp); [apply Wl; exact H|exact Hp|]. apply (Permutation_in _ (Permutation_sym (Permutation_cons_append lp c))). exact Hx. }
      assert (Rf : exists rt', (if list_eqb (map nat_of_ascii right) (map nat_of_ascii (c :: rp)) then Ok rt else einsum (str ([c] ++ rp ++ chars "->" ++ right)) [rt]) = Ok rt' /\
          shp rt' = map (upd size c newdim) right /\ forall sg p, within_sizes size sg init -> p < newdim -> get rt' (map (upd sg c p) right) = rval p (col sg)).
      { assert (E0 : forall sg p, map (upd sg c p) (c :: rp) = p :: map sg rp).
        { intros. cbn [map]. rewrite upd_same, map_upd by apply Hcrp. reflexivity. }
        destruct (list_eqb (map nat_of_ascii right) (map nat_of_ascii (c :: rp))) eqn:E.
        - apply list_eqb_nat in E. exists rt. split; [reflexivity|]. rewrite E. split; [exact Sr|]. intros sg p H Hp. rewrite E0. apply GRt; assumption.
        - destruct (einsum_perm rt (upd size c newdim) (c :: rp) right) as (rt' & E1 & E2 & E3).
          + apply plain_cons. split; [apply plain_c|apply plain_rp].
          + constructor; [apply Hcrp|exact NDr].
          + symmetry. apply remove_perm; assumption.
          + exact Sr.
          + exists rt'. split; [exact E1|]. split; [exact E2|]. intros sg p H Hp. rewrite E3, E0.
            * apply GRt; assumption.
            * apply within_upd; [apply Wr; exact H|exact Hp]. }
      destruct Lf as (lt' & Elt' & Slt' & Glt'). destruct Rf as (rt' & Ert' & Srt' & Grt').
      exists lt', rt', sv. split; [|split; [exact Slt'|split; [exact Srt'|split; [exact Glt'|split; [exact Grt'|exact Hsv]]]]].
      apply Pre. cbv zeta. rewrite Hrank. apply Nat.eqb_neq in H0. rewrite H0.
      replace (match D with Some d => (d, zero_rows S2 rank, zero_cols A2 rank, zero_rows B2 rank) | None => (rank, cut_vec S2 rank, cut_cols A2 rank, cut_rows B2 rank) end)
        with (newdim, S3, A3, B3) by (unfold S3, A3, B3; destruct D as [d|]; destruct HD as [_ ->]; reflexivity).
      rewrite ELR. cbn [rbind]. rewrite Elt. cbn [rbind]. rewrite Ert. cbn [rbind]. rewrite Elt'. cbn [rbind]. rewrite Ert'. reflexivity.
  Qed.
End SvdFlex.
