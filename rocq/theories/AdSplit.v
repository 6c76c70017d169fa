(** * AdSplit: the SVD split of one merged core *)
From Coq Require Import Reals Lra Permutation.
From Verif Require Import Base Scalars Tensor Spec LinAlg Contractables Utils UtilsSpec UtilsProofs SvdProofs SvdFinal P_Svd TorchMps Adaptive.

Definition nonzero (t : tensor R_ops) : Prop := exists idx, valid (shp t) idx /\ get t idx <> 0%R.

Lemma coord_reading ls idx : NoDup ls -> List.length idx = List.length ls -> forall (f : ascii -> nat), (forall x, In x ls -> f x = coord ls x idx) -> map f ls = idx.
Proof. intros H1 H2 f Hf. rewrite (map_ext_in _ _ _ Hf). apply (reading_map ls idx H1 H2). Qed.

Lemma nodup_parts {A} (a b : list A) : NoDup (a ++ b) -> NoDup a /\ NoDup b /\ forall x, In x a -> ~ In x b.
Proof.
  induction a as [|y a IH]; intros ND; [split; [constructor|]; split; [exact ND|]; intros x []|].
  cbn [app] in ND. inversion ND as [|? ? Hy ND']; subst. destruct (IH ND') as (Na & Nb & Di). split; [constructor; [intros Hx; apply Hy, in_or_app; left; exact Hx|exact Na]|].
  split; [exact Nb|]. intros x [E|Hx]; [subst x; intros Hb; apply Hy, in_or_app; right; exact Hb|apply Di; exact Hx].
Qed.
Lemma unit_column (f : nat -> R) a : bsum (S := R_ops) a (fun i => (f i * f i)%R) = 1%R -> exists i, i < a /\ f i <> 0%R.
Proof.
  induction a as [|a IH]; intros E; [cbn in E; exfalso; lra|].
  destruct (Req_EM_T (f a) 0%R) as [Ha|Ha]; [|exists a; split; [lia|exact Ha]].
  destruct IH as (i & Hi & Hf); [|exists i; split; [lia|exact Hf]].
  rewrite <- E. cbn [bsum]. rewrite Ha. cbn. lra.
Qed.

Section Split.
  Variable svd : tensor R_ops -> tensor R_ops * tensor R_ops * tensor R_ops.
  Variables (T : tensor R_ops) (size : ascii -> nat) (s : string) (init left right : list ascii) (c : ascii) (U S V : tensor R_ops).
  Hypothesis H : svd_call svd T size s init left right c U S V.
  Notation lr := (remove ascii_dec c left).
  Notation lc := (remove ascii_dec c right).
  Notation m := (volume (map size lr)).
  Notation n := (volume (map size lc)).
  Notation k := (Nat.min m n).
  Notation row sg := (position (map size lr) (map sg lr)).
  Notation col sg := (position (map size lc) (map sg lc)).
  Lemma at_position i j : i < m -> j < n -> exists sg, within_sizes size sg init /\ row sg = i /\ col sg = j.
  Proof.
    intros Hi Hj. destruct H as [[_ _ N1 N2 N3 _ _ _ P] _ _ _ _ _].
    assert (ND : NoDup (lr ++ lc)) by (eapply Permutation_NoDup; eassumption).
    destruct (nodup_parts _ _ ND) as (Nr & Nc & Disj).
    rewrite volume_iprod in Hi, Hj.
    set (ri := unravel (map size lr) i). set (ci := unravel (map size lc) j).
    assert (Vr : valid (map size lr) ri) by (apply unravel_valid; exact Hi).
    assert (Vc : valid (map size lc) ci) by (apply unravel_valid; exact Hj).
    set (f := fun x => if in_dec ascii_dec x lr then coord lr x ri else coord lc x ci). exists f. split; [|split].
    - intros x Hx. unfold f. destruct (in_dec ascii_dec x lr) as [Hr|Hr].
      + apply (reading_within size lr ri Nr Vr x Hr).
      + apply (Permutation_in _ P), in_app_or in Hx as [Hx|Hx]; [contradiction|]. apply (reading_within size lc ci Nc Vc x Hx).
    - rewrite (coord_reading lr ri Nr) with (f := f); [| |].
      + rewrite position_ravel by (apply valid_length; exact Vr). apply ravel_unravel. exact Hi.
      + rewrite <- (map_length size lr). apply valid_length; exact Vr.
      + intros x Hx. unfold f. destruct (in_dec ascii_dec x lr) as [|Hr]; [reflexivity|contradiction].
    - rewrite (coord_reading lc ci Nc) with (f := f); [| |].
      + rewrite position_ravel by (apply valid_length; exact Vc). apply ravel_unravel. exact Hj.
      + rewrite <- (map_length size lc). apply valid_length; exact Vc.
      + intros x Hx. unfold f. destruct (in_dec ascii_dec x lr) as [Hr|]; [exfalso; apply (Disj x Hr Hx)|reflexivity].
  Qed.

  Variables (D : nat) (cutoff : R).
  Hypotheses (HD : 0 < D) (Hm : 0 < m) (Hn : 0 < n) (Hc : (0 < cutoff)%R) (Hs : (cutoff <= get S [0%nat])%R).
  Lemma split_pair : exists L R0 d v,
    svd_flex svd T s (Some D) cutoff true (Some D) = Ok (L, R0, d, Some v) /\
    d = count_ge cutoff (fun p => get S [p]) (Nat.min D k) /\ 1 <= d <= D /\
    shp L = map (upd size c D) left /\ shp R0 = map (upd size c D) right /\
    shp v = [D] /\ (forall p, p < D -> get v [p] = if p <? k then get S [p] else 0%R) /\
    nonzero L /\ nonzero R0 /\
    (forall sg, within_sizes size sg init ->
       bsum (S := R_ops) D (fun p => (get L (map (upd sg c p) left) * get R0 (map (upd sg c p) right))%R)
       = bsum (S := R_ops) d (fun p => (get U [row sg; p] * get S [p] * get V [col sg; p])%R)) /\
    ((forall p, d <= p -> p < k -> get S [p] = 0%R) -> forall sg, within_sizes size sg init ->
       bsum (S := R_ops) d (fun p => (get U [row sg; p] * get S [p] * get V [col sg; p])%R) = get T (map sg init)).
  Proof.
    destruct H as [Hl HT HU HS HV Hsvd].
    assert (He : forall A, matrix_of size T init lr lc A -> svd A = (U, S, V)) by (intros A HA; apply Hsvd; exact HA).
    assert (Hd : forall A, matrix_of size T init lr lc A -> is_svd m n (fun i j => get A [i; j]) (fun i p => get U [i; p]) (fun j p => get V [j; p]) (fun p => get S [p])) by (intros A HA; apply Hsvd; exact HA).
    destruct (matrix_exists T size init left right c s Hl HT) as (A & HA). pose proof (Hd A HA) as HSV.
    pose proof (rnk_count_pos T size init left right c s Hl HT U S V Hd (Some D) cutoff Hc) as Er.
    assert (Esp : spectrum_len (Some D) k = D) by (destruct D; [lia|reflexivity]). rewrite Esp in Er.
    set (d := rnk size left right c S (Some D) cutoff) in *.
    assert (End_ : new_dim (Some D) d = D) by (destruct D; [lia|reflexivity]).
    assert (Hd1 : 1 <= d).
    { rewrite Er. destruct (Nat.min D k) as [|z] eqn:Ez; [lia|]. rewrite count_ge_S. destruct (Rle_dec cutoff (get S [0%nat])) as [|X]; [lia|contradiction]. }
    assert (Hd2 : d <= D) by (rewrite Er; pose proof (count_ge_le cutoff (fun p => get S [p]) (Nat.min D k)); lia).
    assert (Hdk : d <= k) by (rewrite Er; pose proof (count_ge_le cutoff (fun p => get S [p]) (Nat.min D k)); lia).
    destruct (flex svd T size init left right c s Hl HT U S V He HU HS HV Hd (Some D) cutoff true (Some D) (eq_sym Esp)) as [_ F1].
    destruct (F1 ltac:(fold d; lia)) as (L & R0 & sv & E & S1 & S2 & G1 & G2 & G3). clear F1. fold d in E, S1, S2, G1, G2. rewrite End_ in *. rewrite Esp in G3.
    destruct sv as [v|]; [|destruct G3]. destruct G3 as [G3 G4].
    assert (B1 : In c left) by apply Hl. assert (B2 : In c right) by apply Hl.
    assert (P : Permutation init (lr ++ lc)) by apply Hl.
    assert (Within : forall ls sg p, (forall x, In x ls -> x = c \/ In x init) -> within_sizes size sg init -> p < D -> valid (map (upd size c D) ls) (map (upd sg c p) ls)).
    { intros ls sg p Hls Hsg Hp. apply valid_map. intros x Hx. unfold upd. destruct (Ascii.eqb_spec x c) as [->|Hne]; [exact Hp|].
      destruct (Hls x Hx) as [|Hi]; [contradiction|]. apply Hsg. exact Hi. }
    assert (InL : forall x, In x left -> x = c \/ In x init).
    { intros x Hx. destruct (ascii_dec x c) as [|Hne]; [left; assumption|right]. apply (Permutation_in _ (Permutation_sym P)), in_or_app. left. apply in_in_remove; assumption. }
    assert (InR : forall x, In x right -> x = c \/ In x init).
    { intros x Hx. destruct (ascii_dec x c) as [|Hne]; [left; assumption|right]. apply (Permutation_in _ (Permutation_sym P)), in_or_app. right. apply in_in_remove; assumption. }
    exists L, R0, d, v. split; [exact E|]. split; [exact Er|]. split; [lia|]. split; [exact S1|]. split; [exact S2|]. split; [exact G3|].
    split; [exact G4|]. split; [|split; [|split]].
    - destruct (unit_column (fun i => get U [i; 0%nat]) m) as (i & Hi & Ui).
      { rewrite (svd_orth_U _ _ _ _ _ _ HSV 0 0) by lia. reflexivity. }
      destruct (at_position i 0 Hi Hn) as (sg & Hsg & Hr & _). exists (map (upd sg c 0) left).
      split; [rewrite S1; apply Within; auto|]. rewrite G1 by (auto; lia). unfold lvl. fold d. rewrite Hr.
      destruct (Nat.ltb_spec 0 (Nat.min d k)); [|lia]. rewrite Rmult_1_r. exact Ui.
    - destruct (unit_column (fun i => get V [i; 0%nat]) n) as (j & Hj & Vj).
      { rewrite (svd_orth_V _ _ _ _ _ _ HSV 0 0) by lia. reflexivity. }
      destruct (at_position 0 j Hm Hj) as (sg & Hsg & _ & Hr). exists (map (upd sg c 0) right).
      split; [rewrite S2; apply Within; auto|]. rewrite G2 by (auto; lia). unfold rvl. fold d. rewrite Hr.
      destruct (Nat.ltb_spec 0 (Nat.min d k)); [|lia]. apply Rmult_integral_contrapositive. split; [lra|exact Vj].
    - intros sg Hsg.
      transitivity (bsum (S := R_ops) D (fun p => if p <? d then (get U [row sg; p] * get S [p] * get V [col sg; p])%R else 0%R)).
      + apply (bsum_ext (S := R_ops)). intros p Hp. rewrite G1, G2 by assumption. unfold lvl, rvl. fold d. 
        replace (Nat.min d k) with d by lia. destruct (p <? d); rring.
      + rewrite (bsum_trunc _ d D Hd2). reflexivity.
    - intros H0 sg Hsg. rewrite (entry_sum T size init left right c s Hl HT U S V Hd sg Hsg).
        rewrite <- (bsum_trunc (fun p => (get U [row sg; p] * get S [p] * get V [col sg; p])%R) d k Hdk).
        apply (bsum_ext (S := R_ops)). intros p Hp. destruct (Nat.ltb_spec p d); [reflexivity|]. rewrite (H0 p) by lia. rring.
  Qed.
End Split.
