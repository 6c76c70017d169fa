(** * P_AdUnit: adaptive models of every size that meet the hypotheses of the theorems about flips.
    An optimizer has set every core to 0 except for its first entry, which is 1; then every pair of merged
    cores is a matrix whose first entry is 1 and whose other entries are 0, and [unit_svd] decomposes it
    correctly.  (P_AdEx.v: the same for bond dimension 2, feature dimension 1, one output.) *)
From Coq Require Import Reals Lra Permutation.
From Verif Require Import Base Scalars Tensor Spec LinAlg Contractables Utils UtilsSpec UtilsProofs SvdProofs P_Svd TorchMps TmSpec TmProofs TmFinal Adaptive AdMerge AdKinds AdSpec AdUnmerge AdFlip AdState AdCall AdHealthy P_Ad P_AdEx.

Definition eye_like (m k : nat) : tensor R_ops := mkT [m; k] (fun i => if nth 0 i 0 =? nth 1 i 0 then 1%R else 0%R).
Definition unit_sv (k : nat) : tensor R_ops := mkT [k] (fun i => if nth 0 i 0 =? 0 then 1%R else 0%R).
(** a function that decomposes the matrices with first entry 1 and all others 0 *)
Definition unit_svd (A : tensor R_ops) : tensor R_ops * tensor R_ops * tensor R_ops :=
  let m := nth 0 (shp A) 0 in let n := nth 1 (shp A) 0 in let k := Nat.min m n in (eye_like m k, unit_sv k, eye_like n k).

Lemma bsum_pick n p (f : nat -> R) : p < n -> bsum (S := R_ops) n (fun i => if i =? p then f i else 0%R) = f p.
Proof.
  intros Hp. induction n as [|n IH]; [lia|]. cbn [bsum]. destruct (Nat.eqb_spec n p) as [->|Hn].
  - rewrite (bsum_ext (S := R_ops) _ _ (fun _ => 0%R)).
    + assert (Z : bsum (S := R_ops) p (fun _ => 0%R) = 0%R) by (clear; induction p; [reflexivity|]; cbn [bsum]; rewrite IHp; cbn; lra). rewrite Z. cbn. lra.
    + intros i Hi. destruct (Nat.eqb_spec i p); [lia|reflexivity].
  - rewrite IH by lia. cbn. lra.
Qed.
Lemma eye_orth m k p q : p < k -> q < k -> k <= m ->
  bsum (S := R_ops) m (fun i => (get (eye_like m k) [i; p] * get (eye_like m k) [i; q])%R) = if p =? q then 1%R else 0%R.
Proof.
  intros Hp Hq Hk. refine (eq_trans _ (bsum_pick m p (fun i => if i =? q then 1%R else 0%R) _)); [|lia].
  apply (bsum_ext (S := R_ops)). intros i _. cbn. destruct (i =? p), (i =? q); lra.
Qed.
Lemma unit_is_svd m n (A : nat -> nat -> R) : 0 < m -> 0 < n ->
  (forall i j, i < m -> j < n -> A i j = if (i =? 0) && (j =? 0) then 1%R else 0%R) ->
  is_svd m n A (fun i p => get (eye_like m (Nat.min m n)) [i; p]) (fun j p => get (eye_like n (Nat.min m n)) [j; p]) (fun p => get (unit_sv (Nat.min m n)) [p]).
Proof.
  intros Hm Hn HA. constructor.
  - intros. apply eye_orth; lia.
  - intros. apply eye_orth; lia.
  - intros p _. cbn. destruct (p =? 0); lra.
  - intros p q Hpq _. cbn. destruct (Nat.eqb_spec p 0), (Nat.eqb_spec q 0); try lra. lia.
  - intros i j Hi Hj. rewrite HA by assumption.
    transitivity (bsum (S := R_ops) (Nat.min m n) (fun p => if p =? 0 then (if (i =? 0) && (j =? 0) then 1%R else 0%R) else 0%R)).
    + rewrite (bsum_pick _ 0 (fun _ => if (i =? 0) && (j =? 0) then 1%R else 0%R)) by lia. reflexivity.
    + apply (bsum_ext (S := R_ops)). intros p _. cbn. destruct (Nat.eqb_spec p 0) as [->|]; [|lra]. destruct (i =? 0), (j =? 0); cbn; lra.
Qed.

Section Unit.
  Variables D F O : nat.
  Hypotheses (HD : 0 < D) (HF : 0 < F) (HO : 0 < O).
  Definition unit_pair (t : tensor R_ops) (p : pair_type) : Prop := shp t = map (sizes D F O) (axes p) /\ forall i, get t i = first_one i.
  Definition rows (p : pair_type) : nat := match p with TwoInputs => D * F | _ => O * D end.
  Definition cols (p : pair_type) : nat := D * F.
  Lemma vols p : volume (map (sizes D F O) (remove ascii_dec "u"%char (axes1 p))) = rows p /\ volume (map (sizes D F O) (remove ascii_dec "u"%char (axes2 p))) = cols p.
  Proof. destruct p; cbn -[Nat.mul]; unfold cols; lia. Qed.
  Lemma unit_matrix p t (A : tensor R_ops) : unit_pair t p -> matrix_of (sizes D F O) t (axes p) (remove ascii_dec "u"%char (axes1 p)) (remove ascii_dec "u"%char (axes2 p)) A ->
    shp A = [rows p; cols p] /\ forall i j, i < rows p -> j < cols p -> get A [i; j] = if (i =? 0) && (j =? 0) then 1%R else 0%R.
  Proof.
    intros [_ Hg] [HA Gs].
    assert (Dm : forall x y n, x < n * y -> x / y < n /\ x mod y < y /\ x = x / y * y + x mod y /\ ((x / y =? 0) && (x mod y =? 0))%bool = (x =? 0)).
    { intros x y n Hx. assert (y <> 0) by lia. assert (Q1 : x / y < n) by (apply Nat.div_lt_upper_bound; lia). pose proof (Nat.mod_upper_bound x y ltac:(lia)) as Q2. pose proof (Nat.div_mod x y ltac:(lia)) as Q3.
      split; [exact Q1|]. split; [exact Q2|]. split; [lia|]. destruct (Nat.eqb_spec (x / y) 0) as [Z1|Z1], (Nat.eqb_spec (x mod y) 0) as [Z2|Z2], (Nat.eqb_spec x 0) as [Z3|Z3]; cbn; try reflexivity; nia. }
    assert (Fo : forall a b c d, first_one [a; b; c; d] = if (a =? 0) && ((b =? 0) && ((c =? 0) && (d =? 0))) then 1%R else 0%R).
    { intros. unfold first_one. cbn [forallb]. rewrite andb_true_r, !(Nat.eqb_sym 0). reflexivity. }
    split; [destruct (vols p) as [V1 V2]; rewrite V1, V2 in HA; exact HA|]. destruct p; intros i j Hi Hj; cbn [rows cols] in Hi, Hj.
    - destruct (Dm i F D Hi) as (a1 & a2 & a3 & a4). destruct (Dm j F D Hj) as (b1 & b2 & b3 & b4).
      set (sg := fun x => if Ascii.eqb x "l"%char then i / F else if Ascii.eqb x "i"%char then i mod F else if Ascii.eqb x "r"%char then j / F else j mod F).
      assert (W : within_sizes (sizes D F O) sg (axes TwoInputs)) by (intros x Hx; cbn in Hx; repeat (destruct Hx as [<-|Hx]; [unfold sizes, sg; cbn [Ascii.eqb Bool.eqb orb]; assumption|]); destruct Hx).
      specialize (Gs sg W). rewrite Hg in Gs. cbn -[Nat.div Nat.modulo Nat.mul Nat.add first_one] in Gs. rewrite Fo in Gs.
      replace ((0 * D + i / F) * F + i mod F) with i in Gs by lia. replace ((0 * D + j / F) * F + j mod F) with j in Gs by lia. refine (eq_trans Gs _). rewrite <- a4, <- b4.
      destruct (i / F =? 0), (i mod F =? 0), (j / F =? 0), (j mod F =? 0); reflexivity.
    - destruct (Dm i D O Hi) as (a1 & a2 & a3 & a4). destruct (Dm j F D Hj) as (b1 & b2 & b3 & b4).
      set (sg := fun x => if Ascii.eqb x "o"%char then i / D else if Ascii.eqb x "r"%char then i mod D else if Ascii.eqb x "l"%char then j / F else j mod F).
      assert (W : within_sizes (sizes D F O) sg (axes InputOutput)) by (intros x Hx; cbn in Hx; repeat (destruct Hx as [<-|Hx]; [unfold sizes, sg; cbn [Ascii.eqb Bool.eqb orb]; assumption|]); destruct Hx).
      specialize (Gs sg W). rewrite Hg in Gs. cbn -[Nat.div Nat.modulo Nat.mul Nat.add first_one] in Gs. rewrite Fo in Gs.
      replace ((0 * O + i / D) * D + i mod D) with i in Gs by lia. replace ((0 * D + j / F) * F + j mod F) with j in Gs by lia. refine (eq_trans Gs _). rewrite <- a4, <- b4.
      destruct (i / D =? 0), (i mod D =? 0), (j / F =? 0), (j mod F =? 0); reflexivity.
    - destruct (Dm i D O Hi) as (a1 & a2 & a3 & a4). destruct (Dm j F D Hj) as (b1 & b2 & b3 & b4).
      set (sg := fun x => if Ascii.eqb x "o"%char then i / D else if Ascii.eqb x "l"%char then i mod D else if Ascii.eqb x "r"%char then j / F else j mod F).
      assert (W : within_sizes (sizes D F O) sg (axes OutputInput)) by (intros x Hx; cbn in Hx; repeat (destruct Hx as [<-|Hx]; [unfold sizes, sg; cbn [Ascii.eqb Bool.eqb orb]; assumption|]); destruct Hx).
      specialize (Gs sg W). rewrite Hg in Gs. cbn -[Nat.div Nat.modulo Nat.mul Nat.add first_one] in Gs. rewrite Fo in Gs.
      replace ((0 * O + i / D) * D + i mod D) with i in Gs by lia. replace ((0 * D + j / F) * F + j mod F) with j in Gs by lia. refine (eq_trans Gs _). rewrite <- a4, <- b4.
      destruct (i / D =? 0), (i mod D =? 0), (j / F =? 0), (j mod F =? 0); reflexivity.
  Qed.
  Notation kk p := (Nat.min (rows p) (cols p)).
  Lemma pos_rc p : 0 < rows p /\ 0 < cols p.
  Proof. unfold rows, cols. split; [destruct p|]; nia. Qed.
  Lemma unit_call p t : unit_pair t p ->
    svd_call unit_svd t (sizes D F O) (split_string p) (axes p) (axes1 p) (axes2 p) "u" (eye_like (rows p) (kk p)) (unit_sv (kk p)) (eye_like (cols p) (kk p)).
  Proof.
    intros H. destruct (vols p) as [V1 V2]. destruct (pos_rc p) as [P1 P2]. constructor; rewrite ?V1, ?V2; [apply unit_labels|apply H|reflexivity..|].
    intros A HA. destruct (unit_matrix p t A H HA) as [Hs Hg]. split.
    - unfold unit_svd. rewrite Hs. reflexivity.
    - apply unit_is_svd; assumption.
  Qed.
  Lemma unit_spectrum p t S : unit_pair t p -> spectrum unit_svd D F O p t S -> S = unit_sv (kk p).
  Proof.
    intros H (U & V & C). destruct (vols p) as [V1 V2].
    destruct (call_svd _ _ _ _ _ _ _ _ _ _ _ C (mkT [rows p; cols p] (fun z => if forallb (Nat.eqb 0) z then 1%R else 0%R))) as [E _].
    - split; [rewrite V1, V2; reflexivity|]. intros sg Hsg. destruct H as [_ Hg]. rewrite Hg. unfold first_one. cbn [get].
      assert (Z : forall a b c, c <> 0 -> ((0 =? a * c + b) = (0 =? a) && (0 =? b))%bool) by (intros a b c Hc; destruct (Nat.eqb_spec 0 a) as [Ha|Ha], (Nat.eqb_spec 0 b) as [Hb|Hb], (Nat.eqb_spec 0 (a * c + b)) as [Hx|Hx]; cbn; try reflexivity; nia).
      destruct p; cbn -[Nat.mul Nat.add Nat.eqb]; rewrite !Z by lia; cbn [Nat.eqb andb]; rewrite ?andb_true_r;
        repeat match goal with |- context [sg ?x] => destruct (sg x) end; reflexivity.
    - cbn [unit_svd shp nth] in E. injection E as _ <- _. reflexivity.
  Qed.
  Lemma unit_pairs l : Forall (wf K D F O) l -> forall s p t, pair_at (map unit_mod l) s = Some (p, t) -> unit_pair t p.
  Proof.
    induction 1 as [|m l Wm W IH]; intros s p t E; [discriminate E|]. cbn [map pair_at] in E.
    destruct (s <? mod_core_len (unit_mod m)); [|eapply IH; exact E].
    destruct m as [u ub b|u|u|u|u lo]; cbn [unit_mod set_tensor mod_tensor] in E; try discriminate E.
    - destruct (s mod 2 =? 0); [|discriminate E]. injection E as <- <-. destruct Wm as (n & _ & Hu). split; [exact (f_equal (@tl nat) Hu)|]. intros i. unfold sel0. reflexivity.
    - destruct (s =? 0); [|discriminate E]. injection E as <- <-. split; [destruct lo; exact Wm|]. intros i. reflexivity.
  Qed.
  Lemma unit_healthy c l : (c <= 1)%R -> Forall (wf K D F O) l -> healthy unit_svd D F O c (map unit_mod l).
  Proof.
    intros Hc W. split.
    - intros s p t E. pose proof (unit_pairs l W s p t E) as Hu. exists (unit_sv (kk p)). split; [eexists _, _; apply unit_call; exact Hu|exact Hc].
    - intros m t Hi Hm. apply in_map_iff in Hi as (m' & Em & Hi). rewrite Forall_forall in W. specialize (W m' Hi).
      destruct m' as [u ub b|u|u|u|u lo]; cbn [unit_mod set_tensor mod_tensor] in Em; subst m; destruct Hm as [Hm|Hm]; try discriminate Hm; injection Hm as <-;
      exists [0; 0; 0]; (split; [cbn [shp]; rewrite W; repeat constructor; assumption|cbn; lra]).
  Qed.
  Lemma unit_lossless c l : (c <= 1)%R -> Forall (wf K D F O) l -> lossless unit_svd D F O c (map unit_mod l).
  Proof.
    intros Hc W s p t S E Sp k Hk Hd. rewrite (unit_spectrum p t S (unit_pairs l W s p t E) Sp) in *.
    destruct k as [|k]; cbn in *; [destruct Hd; [lia|lra]|reflexivity].
  Qed.
End Unit.
