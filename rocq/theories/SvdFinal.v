(** * SvdFinal: svd_flex in the vocabulary of UtilsSpec.v *)
From Coq Require Import Reals Lra Permutation.
From Verif Require Import Base Scalars Tensor Contractables Utils UtilsSpec UtilsProofs SvdProofs.

Ltac rring := cbn; match goal with |- @eq _ ?a ?b => change (@eq R a b) end; ring.
(** ** Frobenius norm of a sum of orthogonal rank-one matrices *)
Section Frob.
  Notation bs := (bsum (S := R_ops)).
  Lemma frob_sum m n k (U V : nat -> nat -> R) (w : nat -> R) :
    (forall p q, p < k -> q < k -> bs m (fun i => (U i p * U i q)%R) = if p =? q then 1%R else 0%R) ->
    (forall p q, p < k -> q < k -> bs n (fun j => (V j p * V j q)%R) = if p =? q then 1%R else 0%R) ->
    bs m (fun i => bs n (fun j => (bs k (fun p => U i p * w p * V j p) * bs k (fun p => U i p * w p * V j p))%R)) = bs k (fun p => (w p * w p)%R).
  Proof.
    intros HU HV.
    transitivity (bs m (fun i => bs n (fun j => bs k (fun p => bs k (fun q => ((w p * w q) * ((U i p * U i q) * (V j p * V j q)))%R))))).
    { apply (bsum_ext (S := R_ops)); intros i Hi. apply (bsum_ext (S := R_ops)); intros j Hj.
      etransitivity; [apply (bsum_mulsum R_cring)|]. apply (bsum_ext (S := R_ops)); intros p Hp. apply (bsum_ext (S := R_ops)); intros q Hq. rring. }
    transitivity (bs k (fun p => bs k (fun q => ((w p * w q) * (bs m (fun i => U i p * U i q) * bs n (fun j => V j p * V j q)))%R))).
    { transitivity (bs m (fun i => bs k (fun p => bs k (fun q => bs n (fun j => ((w p * w q) * ((U i p * U i q) * (V j p * V j q)))%R))))).
      { apply (bsum_ext (S := R_ops)); intros i Hi. etransitivity; [apply (bsum_swap R_cring)|]. apply (bsum_ext (S := R_ops)); intros p Hp. apply (bsum_swap R_cring). }
      etransitivity; [apply (bsum_swap R_cring)|]. apply (bsum_ext (S := R_ops)); intros p Hp.
      etransitivity; [apply (bsum_swap R_cring)|]. apply (bsum_ext (S := R_ops)); intros q Hq.
      etransitivity; [apply (bsum_ext (S := R_ops)); intros i Hi; apply (bsum_mul_l R_cring)|].
      etransitivity; [apply (bsum_mul_l R_cring)|]. apply (f_equal (Rmult (w p * w q))).
      symmetry. etransitivity; [apply (bsum_mulsum R_cring)|]. reflexivity. }
    apply (bsum_ext (S := R_ops)); intros p Hp.
    transitivity (bs k (fun q => if q =? p then (w q * w q)%R else 0%R)).
    { apply (bsum_ext (S := R_ops)); intros q Hq. rewrite HU, HV by assumption. rewrite Nat.eqb_sym.
      destruct (Nat.eqb_spec q p) as [->|]; rring. }
    apply (bsum_delta R_cring k p (fun q => (w q * w q)%R)). exact Hp.
  Qed.
End Frob.

(** ** sums over all indices of a tensor *)
Lemma rsum_perm l m : Permutation l m -> rsum l = rsum m.
Proof. induction 1; unfold rsum in *; cbn; try lra. Qed.
Lemma rsum_app l m : rsum (l ++ m) = (rsum l + rsum m)%R.
Proof. induction l as [|x l IH]; unfold rsum in *; cbn; [lra|]. rewrite IH. lra. Qed.
Lemma rsum_seq n (f : nat -> R) : rsum (map f (seq 0 n)) = bsum (S := R_ops) n f.
Proof. induction n as [|n IH]; [reflexivity|]. rewrite seq_S, map_app, rsum_app, IH. cbn. unfold rsum; cbn. lra. Qed.
Lemma rsum_list_prod m n (f : nat * nat -> R) :
  rsum (map f (list_prod (seq 0 m) (seq 0 n))) = bsum (S := R_ops) m (fun i => bsum (S := R_ops) n (fun j => f (i, j))).
Proof.
  rewrite <- rsum_seq. generalize (seq 0 m). intros l. induction l as [|i l IH]; [reflexivity|].
  cbn [list_prod map]. rewrite map_app, rsum_app, IH, map_map. cbn. rewrite rsum_seq. reflexivity.
Qed.
Lemma all_idx_nodup sh : NoDup (all_idx sh).
Proof.
  induction sh as [|n sh IH]; cbn [all_idx]; [repeat constructor; intros []|].
  assert (G : forall a k, NoDup (flat_map (fun i => map (cons i) (all_idx sh)) (seq a k))).
  { intros a k. revert a. induction k as [|k IHk]; intros a; cbn [seq flat_map]; [constructor|].
    assert (N : forall l1 l2 : list (list nat), NoDup l1 -> NoDup l2 -> (forall x, In x l1 -> ~ In x l2) -> NoDup (l1 ++ l2)).
    { induction l1 as [|x l1 IHl]; intros l2 H1 H2 H; [exact H2|]. inversion H1; subst. cbn. constructor.
      - rewrite in_app_iff. intros [X|X]; [contradiction|]. apply (H x); [left; reflexivity|exact X].
      - apply IHl; auto. intros y Hy. apply H. right; exact Hy. }
    apply N; [|apply IHk|].
    - apply FinFun.Injective_map_NoDup; [intros x y E; congruence|exact IH].
    - intros x Hx. apply in_map_iff in Hx as (r & <- & _). rewrite in_flat_map. intros (i & Hi & H). apply in_map_iff in H as (r' & E & _). apply in_seq in Hi. injection E as E _. lia. }
  apply G.
Qed.
Lemma coord_map ls (sg : ascii -> nat) x : In x ls -> coord ls x (map sg ls) = sg x.
Proof.
  induction ls as [|y ls IH]; intros H; [destruct H|]. cbn [map coord]. destruct (Ascii.eqb_spec y x) as [->|Hne]; [reflexivity|].
  apply IH. destruct H as [H|H]; [congruence|exact H].
Qed.
Lemma reading_map ls : forall idx, NoDup ls -> List.length idx = List.length ls -> map (reading ls idx) ls = idx.
Proof.
  induction ls as [|y ls IH]; intros [|i idx] Hnd Hn; try discriminate; [reflexivity|]. inversion Hnd; subst.
  cbn [map]. f_equal; [unfold reading; cbn [coord]; rewrite Ascii.eqb_refl; reflexivity|].
  rewrite <- (IH idx) at 2 by (auto; cbn in Hn; lia). apply map_ext_in. intros x Hx. unfold reading. cbn [coord].
  destruct (Ascii.eqb_spec y x) as [->|]; [contradiction|reflexivity].
Qed.
Lemma reading_within size ls idx : NoDup ls -> valid (map size ls) idx -> within_sizes size (reading ls idx) ls.
Proof.
  intros Hnd Hv x Hx. revert idx Hv. induction ls as [|y ls IH]; intros idx Hv; [destruct Hx|]. cbn [map] in Hv.
  apply valid_cons in Hv as (i & r & -> & Hi & Hv). unfold reading. cbn [coord]. destruct (Ascii.eqb_spec y x) as [->|Hne]; [exact Hi|].
  inversion Hnd; subst. apply IH; auto. destruct Hx as [Hx|Hx]; [congruence|exact Hx].
Qed.

Section Final.
  Variable svd : tensor R_ops -> tensor R_ops * tensor R_ops * tensor R_ops.
  Variables (T : tensor R_ops) (size : ascii -> nat) (init left right : list ascii) (c : ascii) (s : string).
  Hypothesis Hlab : svd_labels s init left right c.
  Hypothesis HT : shp T = map size init.
  Notation lr := (remove ascii_dec c left).
  Notation lc := (remove ascii_dec c right).
  Notation m := (volume (map size lr)).
  Notation n := (volume (map size lc)).
  Notation k := (Nat.min m n).
  Variables U S V : tensor R_ops.
  Hypothesis Hsvd : forall A, matrix_of size T init lr lc A -> svd A = (U, S, V).
  Hypothesis HU : shp U = [m; k]. Hypothesis HS : shp S = [k]. Hypothesis HV : shp V = [n; k].
  Hypothesis Hdec : forall A, matrix_of size T init lr lc A ->
    is_svd m n (fun i j => get A [i; j]) (fun i p => get U [i; p]) (fun j p => get V [j; p]) (fun p => get S [p]).
  Variables (max_D : option nat) (cutoff : R) (sv_right : bool) (sv_len : option nat).
  Hypothesis Hsvlen : match sv_len with None => True | Some l => l = spectrum_len max_D k end.
  Notation row sg := (position (map size lr) (map sg lr)).
  Notation col sg := (position (map size lc) (map sg lc)).
  Definition padS (p : nat) : R := if p <? k then get S [p] else 0%R.
  Definition rnk := lead cutoff padS (spectrum_len max_D k).
  Definition lvl (sg : ascii -> nat) (p : nat) : R := if p <? Nat.min rnk k then (get U [row sg; p] * (if sv_right then 1 else get S [p]))%R else 0%R.
  Definition rvl (sg : ascii -> nat) (p : nat) : R := if p <? Nat.min rnk k then ((if sv_right then get S [p] else 1) * get V [col sg; p])%R else 0%R.

  Lemma plain_sub (P : list ascii) : (forall x, In x P -> 97 <= nat_of_ascii x <= 122) -> plain P.
  Proof.
    intros H. apply forallb_forall. intros x Hx. apply H in Hx. unfold islower. apply andb_true_intro. split; apply Nat.leb_le; lia.
  Qed.
  Lemma Hperm : Permutation init (lr ++ lc). Proof. apply Hlab. Qed.
  (** the matrix exists: unfolding of [T] *)
  Lemma matrix_exists : exists A, matrix_of size T init lr lc A.
  Proof.
    destruct Hlab as [Hs Hlow N1 N2 N3 B1 B2 B3 P].
    destruct (einsum_perm T size init (lr ++ lc)) as (t & _ & Hst & Hg); try assumption.
    { apply plain_sub. intros x Hx. apply Hlow, in_or_app. left; exact Hx. }
    rewrite map_app in Hst. destruct (view_matrix t _ _ Hst) as (A & _ & HA & GA). exists A.
    split; [rewrite !volume_iprod; exact HA|]. intros sg Hsg.
    assert (H1 : within_sizes size sg lr) by (intros x Hx; apply Hsg, (Permutation_in _ (Permutation_sym P)), in_or_app; left; exact Hx).
    assert (H2 : within_sizes size sg lc) by (intros x Hx; apply Hsg, (Permutation_in _ (Permutation_sym P)), in_or_app; right; exact Hx).
    rewrite !position_ravel by (rewrite !map_length; reflexivity). rewrite GA by (apply valid_map; assumption).
    rewrite <- map_app. apply Hg. exact Hsg.
  Qed.
  Lemma entry_sum sg : within_sizes size sg init ->
    get T (map sg init) = bsum (S := R_ops) k (fun p => (get U [row sg; p] * get S [p] * get V [col sg; p])%R).
  Proof.
    intros Hsg. destruct matrix_exists as (A & HA). rewrite <- (proj2 HA sg Hsg). apply (svd_product _ _ _ _ _ _ (Hdec A HA)).
    - rewrite volume_iprod, position_ravel by (rewrite !map_length; reflexivity). apply ravel_lt, valid_map.
      intros x Hx; apply Hsg, (Permutation_in _ (Permutation_sym Hperm)), in_or_app; left; exact Hx.
    - rewrite volume_iprod, position_ravel by (rewrite !map_length; reflexivity). apply ravel_lt, valid_map.
      intros x Hx; apply Hsg, (Permutation_in _ (Permutation_sym Hperm)), in_or_app; right; exact Hx.
  Qed.
  Lemma flex :
    (rnk = 0 -> svd_flex svd T s max_D cutoff sv_right sv_len = Err RuntimeError) /\
    (rnk <> 0 -> exists Lt Rt sv, svd_flex svd T s max_D cutoff sv_right sv_len = Ok (Lt, Rt, rnk, sv) /\
       shp Lt = map (upd size c (new_dim max_D rnk)) left /\ shp Rt = map (upd size c (new_dim max_D rnk)) right /\
       (forall sg p, within_sizes size sg init -> p < new_dim max_D rnk -> get Lt (map (upd sg c p) left) = lvl sg p) /\
       (forall sg p, within_sizes size sg init -> p < new_dim max_D rnk -> get Rt (map (upd sg c p) right) = rvl sg p) /\
       match sv_len, sv with
       | None, None => True
       | Some _, Some v => shp v = [spectrum_len max_D k] /\ forall p, p < spectrum_len max_D k -> get v [p] = padS p
       | _, _ => False
       end).
  Proof.
    destruct matrix_exists as (A0 & HA0). pose proof (Hdec A0 HA0) as Hd.
    destruct Hlab as [Hs Hlow N1 N2 N3 B1 B2 B3 P].
    assert (P1 : plain init) by (apply plain_sub; intros x Hx; apply Hlow, in_or_app; left; exact Hx).
    assert (P2 : plain left) by (apply plain_sub; intros x Hx; apply Hlow, in_or_app; right; apply in_or_app; left; exact Hx).
    assert (P3 : plain right) by (apply plain_sub; intros x Hx; apply Hlow, in_or_app; right; apply in_or_app; right; exact Hx).
    destruct (svd_flex_spec svd T size init left right c s P1 P2 P3 Hs N1 N2 N3 B1 B2 B3 P HT U S V Hsvd HU HS HV
       ltac:(intros p q Hpq Hq; apply (svd_desc _ _ _ _ _ _ Hd); assumption) max_D cutoff sv_right sv_len Hsvlen) as [F0 F1].
    split; [exact F0|]. intros H. destruct (F1 H) as (Lt & Rt & sv & E & S1 & S2 & G1 & G2 & Gs).
    exists Lt, Rt, sv. split; [exact E|]. split; [exact S1|]. split; [exact S2|]. split; [|split; [|exact Gs]].
    - intros sg p Hsg Hp. rewrite (G1 sg p Hsg Hp). unfold lval, lvl. unfold SvdProofs.row. unfold lp.
      change (rank size left right c S max_D cutoff) with rnk. change (nsv size left right c) with k.
      destruct (p <? Nat.min rnk k); [|reflexivity]. destruct sv_right; [rewrite Rmult_1_r|]; reflexivity.
    - intros sg p Hsg Hp. rewrite (G2 sg p Hsg Hp). unfold rval, rvl. unfold SvdProofs.col. unfold rp.
      change (rank size left right c S max_D cutoff) with rnk. change (nsv size left right c) with k.
      destruct (p <? Nat.min rnk k); [|reflexivity]. destruct sv_right; [|rewrite Rmult_1_l]; reflexivity.
  Qed.
  Lemma rnk_le : rnk <= spectrum_len max_D k. Proof. apply lead_le. Qed.
  Lemma rnk_new : rnk <> 0 -> Nat.min rnk k <= new_dim max_D rnk.
  Proof. clear Hsvlen. intros H. pose proof rnk_le as Hl. unfold new_dim, spectrum_len in *. destruct max_D as [[|d]|]; lia. Qed.
  Lemma bsum_trunc (f : nat -> R) a b : a <= b -> bsum (S := R_ops) b (fun p => if p <? a then f p else 0%R) = bsum (S := R_ops) a f.
  Proof.
    intros H. replace b with (a + (b - a)) by lia. etransitivity; [apply (bsum_split R_cring)|].
    transitivity (sadd (s := R_ops) (bsum (S := R_ops) a f) 0%R).
    - apply (f_equal2 Rplus).
      + apply (bsum_ext (S := R_ops)). intros p Hp. apply Nat.ltb_lt in Hp. rewrite Hp. reflexivity.
      + apply (bsum_zero R_cring). intros p Hp. destruct (Nat.ltb_spec (a + p) a); [lia|reflexivity].
    - cbn. lra.
  Qed.
  Lemma contract_value Lt Rt sg : rnk <> 0 -> within_sizes size sg init ->
    (forall p, p < new_dim max_D rnk -> get Lt (map (upd sg c p) left) = lvl sg p) ->
    (forall p, p < new_dim max_D rnk -> get Rt (map (upd sg c p) right) = rvl sg p) ->
    contract Lt Rt left right c (new_dim max_D rnk) sg
    = bsum (S := R_ops) (Nat.min rnk k) (fun p => (get U [row sg; p] * get S [p] * get V [col sg; p])%R).
  Proof.
    intros H0 Hsg G1 G2. unfold contract. rewrite <- (bsum_trunc _ (Nat.min rnk k) (new_dim max_D rnk)) by (apply rnk_new; exact H0).
    apply (bsum_ext (S := R_ops)). intros p Hp. rewrite G1, G2 by assumption. unfold lvl, rvl.
    destruct (p <? Nat.min rnk k); [|rring]. destruct sv_right; rring.
  Qed.
  (** counting *)
  Lemma pad_desc : forall p q, p <= q -> (padS q <= padS p)%R.
  Proof.
    intros p q Hpq. unfold padS. destruct matrix_exists as (A0 & HA0). pose proof (Hdec A0 HA0) as Hd.
    destruct (Nat.ltb_spec p k), (Nat.ltb_spec q k); try lia; try lra.
    - apply (svd_desc _ _ _ _ _ _ Hd); assumption.
    - apply (svd_nonneg _ _ _ _ _ _ Hd); assumption.
  Qed.
  Lemma rnk_count : rnk = count_ge cutoff padS (spectrum_len max_D k).
  Proof. apply lead_count. intros. apply pad_desc. assumption. Qed.
  Lemma rnk_count_pos : (0 < cutoff)%R -> rnk = count_ge cutoff (fun p => get S [p]) (Nat.min (spectrum_len max_D k) k).
  Proof.
    intros Hc. rewrite rnk_count.
    replace (spectrum_len max_D k) with (Nat.min (spectrum_len max_D k) k + (spectrum_len max_D k - k)) at 1 by lia.
    rewrite count_ge_app. rewrite (count_ge_none cutoff (spectrum_len max_D k - k)).
    - rewrite Nat.add_0_r. apply count_ge_ext. intros p Hp. unfold padS. destruct (Nat.ltb_spec p k); [reflexivity|lia].
    - intros p Hp. unfold padS. destruct (Nat.ltb_spec (Nat.min (spectrum_len max_D k) k + p) k); [lia|exact Hc].
  Qed.
  (** ** sum over the entries of T *)
  Lemma sum_entries (f : nat -> nat -> R) :
    rsum (map (fun idx => f (row (reading init idx)) (col (reading init idx))) (all_idx (shp T)))
    = bsum (S := R_ops) m (fun i => bsum (S := R_ops) n (fun j => f i j)).
  Proof.
    destruct Hlab as [Hs Hlow N1 N2 N3 B1 B2 B3 P].
    set (g := fun idx => (row (reading init idx), col (reading init idx))).
    transitivity (rsum (map (fun q => f (fst q) (snd q)) (map g (all_idx (shp T))))); [rewrite map_map; reflexivity|].
    assert (Hrp : forall sg, position (map size lr) (map sg lr) = ravel (map size lr) (map sg lr)) by (intros; apply position_ravel; rewrite !map_length; reflexivity).
    assert (Hcp : forall sg, position (map size lc) (map sg lc) = ravel (map size lc) (map sg lc)) by (intros; apply position_ravel; rewrite !map_length; reflexivity).
    assert (W : forall idx, valid (map size init) idx -> within_sizes size (reading init idx) init) by (intros; apply reading_within; assumption).
    assert (I1 : forall x, In x lr -> In x init) by (intros x Hx; apply (Permutation_in _ (Permutation_sym P)), in_or_app; left; exact Hx).
    assert (I2 : forall x, In x lc -> In x init) by (intros x Hx; apply (Permutation_in _ (Permutation_sym P)), in_or_app; right; exact Hx).
    assert (Inj : forall x y, valid (map size init) x -> valid (map size init) y -> g x = g y -> x = y).
    { intros x y Hx Hy E. unfold g in E. injection E as E1 E2. rewrite !Hrp in E1. rewrite !Hcp in E2.
      assert (F1 : map (reading init x) lr = map (reading init y) lr).
      { rewrite <- (unravel_ravel (map size lr) (map (reading init x) lr)), <- (unravel_ravel (map size lr) (map (reading init y) lr)), E1; [reflexivity| |];
          apply valid_map; intros z Hz; apply W; auto. }
      assert (F2 : map (reading init x) lc = map (reading init y) lc).
      { rewrite <- (unravel_ravel (map size lc) (map (reading init x) lc)), <- (unravel_ravel (map size lc) (map (reading init y) lc)), E2; [reflexivity| |];
          apply valid_map; intros z Hz; apply W; auto. }
      rewrite <- (reading_map init x), <- (reading_map init y) by (auto; rewrite <- (map_length size init); apply valid_length; assumption).
      apply map_ext_in. intros z Hz. apply (Permutation_in _ P) in Hz. apply in_app_or in Hz as [Hz|Hz];
        [clear -F1 Hz; revert F1 Hz; generalize lr as L | clear -F2 Hz; revert F2 Hz; generalize lc as L]; intros L F Hz;
        (induction L as [|w L IH]; [destruct Hz|]; cbn [map] in F; injection F as Fa Fb; destruct Hz as [->|Hz]; [exact Fa|apply IH; assumption]). }
    assert (Perm : Permutation (map g (all_idx (shp T))) (list_prod (seq 0 m) (seq 0 n))).
    { apply NoDup_Permutation_bis.
      - assert (Hv : forall idx, In idx (all_idx (shp T)) -> valid (map size init) idx) by (intros idx Hi; apply all_idx_spec in Hi; rewrite HT in Hi; exact Hi).
        pose proof (all_idx_nodup (shp T)) as ND. clear -Inj Hv ND. induction ND as [|x l Hx ND IH]; [constructor|]. cbn [map]. constructor.
        + rewrite in_map_iff. intros (y & E & Hy). apply Inj in E; [subst; contradiction|apply Hv; right; exact Hy|apply Hv; left; reflexivity].
        + apply IH. intros; apply Hv; right; assumption.
      - rewrite map_length, prod_length, !seq_length, all_idx_length, HT, !volume_iprod.
        change (fold_right Nat.mul 1 (map size init)) with (iprod (map size init)). rewrite <- iprod_app, <- map_app.
        assert (G : forall a b, Permutation a b -> iprod a = iprod b) by (induction 1; unfold iprod in *; cbn; nia).
        rewrite (G (map size init) (map size (lr ++ lc))); [lia|]. apply Permutation_map. exact P.
      - intros q Hq. apply in_map_iff in Hq as (idx & <- & Hi). apply all_idx_spec in Hi. rewrite HT in Hi. apply in_prod; apply in_seq.
        + rewrite Hrp, volume_iprod. split; [lia|]. apply ravel_lt, valid_map. intros z Hz. apply W; auto.
        + rewrite Hcp, volume_iprod. split; [lia|]. apply ravel_lt, valid_map. intros z Hz. apply W; auto. }
    rewrite (rsum_perm _ _ (Permutation_map _ Perm)). apply (rsum_list_prod m n (fun q => f (fst q) (snd q))).
  Qed.
  Lemma frob_error Lt Rt : rnk <> 0 ->
    (forall sg p, within_sizes size sg init -> p < new_dim max_D rnk -> get Lt (map (upd sg c p) left) = lvl sg p) ->
    (forall sg p, within_sizes size sg init -> p < new_dim max_D rnk -> get Rt (map (upd sg c p) right) = rvl sg p) ->
    rsum (map (fun idx => let e := (get T idx - contract Lt Rt left right c (new_dim max_D rnk) (reading init idx))%R in (e * e)%R) (all_idx (shp T)))
    = bsum (S := R_ops) k (fun p => if p <? rnk then 0%R else (get S [p] * get S [p])%R).
  Proof.
    intros H0 G1 G2. set (w := fun p => if p <? rnk then 0%R else get S [p]).
    pose proof (lab_nodup_init _ _ _ _ _ Hlab) as Hndi.
    set (E := fun i j => bsum (S := R_ops) k (fun p => (get U [i; p] * w p * get V [j; p])%R)).
    transitivity (rsum (map (fun idx => (E (row (reading init idx)) (col (reading init idx)) * E (row (reading init idx)) (col (reading init idx)))%R) (all_idx (shp T)))).
    { f_equal. apply map_ext_in. intros idx Hi. apply all_idx_spec in Hi. rewrite HT in Hi.
      assert (Hsg : within_sizes size (reading init idx) init) by (apply reading_within; assumption).
      assert (Ee : (get T idx - contract Lt Rt left right c (new_dim max_D rnk) (reading init idx))%R = E (row (reading init idx)) (col (reading init idx))).
      { rewrite (contract_value Lt Rt _ H0 Hsg) by (intros; auto).
        rewrite <- (reading_map init idx) at 1 by (auto; rewrite <- (map_length size init); apply valid_length; exact Hi).
        rewrite (entry_sum _ Hsg). unfold E.
        rewrite <- (bsum_trunc _ (Nat.min rnk k) k) by lia.
        match goal with |- (?a - ?b)%R = ?d => assert (X : a = (b + d)%R); [|lra] end.
        symmetry. etransitivity; [symmetry; apply (bsum_add R_cring)|]. apply (bsum_ext (S := R_ops)). intros p Hp. unfold w. cbn [sadd R_ops R_cring rops].
        rewrite ltb_min. assert (Hk : (p <? k) = true) by (apply Nat.ltb_lt; exact Hp). rewrite Hk, andb_true_r. destruct (p <? rnk); rring. }
      cbv zeta. rewrite Ee. reflexivity. }
    rewrite (sum_entries (fun i j => (E i j * E i j)%R)).
    destruct matrix_exists as (A0 & HA0). pose proof (Hdec A0 HA0) as Hd. unfold E.
    etransitivity; [apply (frob_sum m n k (fun i p => get U [i; p]) (fun j p => get V [j; p]) w (svd_orth_U _ _ _ _ _ _ Hd) (svd_orth_V _ _ _ _ _ _ Hd))|].
    apply (bsum_ext (S := R_ops)). intros p Hp. unfold w. destruct (p <? rnk); rring.
  Qed.
End Final.
