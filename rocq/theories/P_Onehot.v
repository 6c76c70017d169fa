(** * P_Onehot: property C82 (torchmps/utils.py: onehot) *)
From Verif Require Import Base Scalars Tensor LinAlg Utils.

Section Onehot.
  Variable K : cring.
  Lemma set_label_ok (t : tensor K) n m i l v : shp t = [n; m] -> (- Z.of_nat m <= l < Z.of_nat m)%Z ->
    exists t', set_label t i l v = Ok t' /\ shp t' = [n; m] /\
      forall a b, b < m -> get t' [a; b] = if (a =? i) && (Z.of_nat b =? l mod Z.of_nat m)%Z then v else get t [a; b].
  Proof.
    intros Hs Hl. unfold set_label. rewrite Hs. cbn [nth].
    assert (E : ((- Z.of_nat m <=? l)%Z && (l <? Z.of_nat m)%Z)%bool = true) by (apply andb_true_intro; split; [apply Z.leb_le|apply Z.ltb_lt]; lia).
    rewrite E. eexists. split; [reflexivity|]. split; [reflexivity|]. intros a b Hb. cbn [get nth]. f_equal.
    assert (Em : (l mod Z.of_nat m = if l <? 0 then l + Z.of_nat m else l)%Z).
    { destruct (Z.ltb_spec l 0); [|apply Z.mod_small; lia]. symmetry. apply (Z.mod_unique _ _ (-1)); lia. }
    rewrite Em. assert (0 <= (if (l <? 0)%Z then l + Z.of_nat m else l))%Z by (destruct (Z.ltb_spec l 0); lia).
    destruct (Nat.eqb_spec a i); [cbn [andb]|reflexivity].
    match goal with |- context [Z.to_nat ?q] => set (w := q) in * end.
    destruct (Nat.eqb_spec b (Z.to_nat w)), (Z.eqb_spec (Z.of_nat b) w); reflexivity || lia.
  Qed.
  Lemma onehot_loop_ok n m labels : forall (t : tensor K) i, shp t = [n; m] -> (forall l, In l labels -> (- Z.of_nat m <= l < Z.of_nat m)%Z) ->
    exists t', onehot_loop t i labels = Ok t' /\ shp t' = [n; m] /\
      forall a b, b < m -> get t' [a; b] = if (i <=? a) && (a <? i + List.length labels)
        then (if (Z.of_nat b =? nth (a - i) labels 0 mod Z.of_nat m)%Z then s1 else get t [a; b]) else get t [a; b].
  Proof.
    induction labels as [|l labels IH]; intros t i Hs Hl.
    - exists t. repeat split; [assumption|]. intros a b Hb. cbn [List.length]. destruct (Nat.leb_spec i a), (Nat.ltb_spec a (i + 0)); cbn [andb]; reflexivity || lia.
    - cbn [onehot_loop]. destruct (set_label_ok t n m i l s1 Hs (Hl l (or_introl eq_refl))) as (t1 & E1 & S1 & G1). rewrite E1. cbn [rbind].
      destruct (IH t1 (S i) S1 (fun x Hx => Hl x (or_intror Hx))) as (t2 & E2 & S2 & G2). exists t2. split; [exact E2|]. split; [exact S2|].
      intros a b Hb. rewrite G2, G1 by exact Hb. cbn [List.length].
      destruct (Nat.eqb_spec a i) as [->|Hne].
      + rewrite Nat.sub_diag. cbn [nth]. destruct (Nat.leb_spec (S i) i); [lia|]. destruct (Nat.leb_spec i i); [|lia]. destruct (Nat.ltb_spec i (i + S (List.length labels))); [|lia]. reflexivity.
      + cbn [andb]. destruct (Nat.leb_spec (S i) a), (Nat.leb_spec i a); try lia; cbn [andb]; [|reflexivity].
        destruct (Nat.ltb_spec a (S i + List.length labels)), (Nat.ltb_spec a (i + S (List.length labels))); try lia; [|reflexivity].
        replace (a - i) with (S (a - S i)) by lia. reflexivity.
  Qed.
  (** One row per label; entry j of the row is 1 if j is the label (a label -k means max_value - k), otherwise 0. *)
  Theorem C82_onehot labels (m : Z) : (0 <= m)%Z -> (forall l, In l labels -> (- m <= l < m)%Z) ->
    exists t : tensor K, onehot labels m = Ok t /\ shp t = [List.length labels; Z.to_nat m] /\
      forall i j, i < List.length labels -> j < Z.to_nat m ->
        get t [i; j] = if (Z.of_nat j =? nth i labels 0 mod m)%Z then s1 else s0.
  Proof.
    intros Hm Hl. unfold onehot. destruct (Z.ltb_spec m 0); [lia|].
    destruct (onehot_loop_ok (List.length labels) (Z.to_nat m) labels (tconst [List.length labels; Z.to_nat m] s0) 0 eq_refl) as (t & E & S & G).
    { rewrite Z2Nat.id by exact Hm. exact Hl. }
    exists t. split; [exact E|]. split; [exact S|]. intros i j Hi Hj. rewrite G by exact Hj. cbn [Nat.add]. rewrite Nat.sub_0_r, Z2Nat.id by exact Hm.
    destruct (Nat.ltb_spec i (List.length labels)); [|lia]. reflexivity.
  Qed.
  (** For the documented labels 0..max_value-1: the unit vector of the label; each row sums to 1. *)
  Theorem C82_onehot_documented (labels : list nat) (m : nat) : (forall l, In l labels -> l < m) ->
    exists t : tensor K, onehot (map Z.of_nat labels) (Z.of_nat m) = Ok t /\ shp t = [List.length labels; m] /\
      (forall i j, i < List.length labels -> j < m -> get t [i; j] = if j =? nth i labels 0 then s1 else s0) /\
      (forall i, i < List.length labels -> bsum m (fun j => get t [i; j]) = s1).
  Proof.
    intros Hl. destruct (C82_onehot (map Z.of_nat labels) (Z.of_nat m)) as (t & E & S & G); [lia| |].
    { intros l Hin. apply in_map_iff in Hin as (x & <- & Hx). specialize (Hl x Hx). lia. }
    rewrite map_length, Nat2Z.id in S. rewrite map_length, Nat2Z.id in G. exists t. split; [exact E|]. split; [exact S|].
    assert (G' : forall i j, i < List.length labels -> j < m -> get t [i; j] = if j =? nth i labels 0 then s1 else s0).
    { intros i j Hi Hj. rewrite G by assumption. change 0%Z with (Z.of_nat 0) at 1. rewrite map_nth.
      pose proof (Hl _ (nth_In labels 0 Hi)). rewrite Z.mod_small by lia.
      destruct (Z.eqb_spec (Z.of_nat j) (Z.of_nat (nth i labels 0))), (Nat.eqb_spec j (nth i labels 0)); reflexivity || lia. }
    split; [exact G'|]. intros i Hi. rewrite (bsum_ext m _ (fun j => if j =? nth i labels 0 then s1 else s0)) by (intros j Hj; apply G'; assumption).
    apply (bsum_delta K m (nth i labels 0) (fun _ => s1)). apply Hl, nth_In, Hi.
  Qed.
  (** Any other label raises IndexError, a negative max_value RuntimeError. *)
  Theorem C82_onehot_rejects labels (m : Z) : 
    ((m < 0)%Z -> onehot (S := K) labels m = Err RuntimeError) /\
    ((0 <= m)%Z -> (exists l, In l labels /\ ~ (- m <= l < m)%Z) -> onehot (S := K) labels m = Err IndexError).
  Proof.
    unfold onehot. split; intros Hm; destruct (Z.ltb_spec m 0); try lia; [reflexivity|]. clear Hm.
    set (n := List.length labels). generalize (tconst [n; Z.to_nat m] (s0 : K)) (eq_refl : shp (tconst [n; Z.to_nat m] (s0 : K)) = [n; Z.to_nat m]). clearbody n.
    generalize 0. induction labels as [|l labels IH]; intros i t Hs (x & Hin & Hx); [contradiction|]. cbn [onehot_loop].
    destruct (Z_le_dec (- m) l) as [H1|H1]; [destruct (Z_lt_dec l m) as [H2|H2]|].
    - destruct (set_label_ok t n (Z.to_nat m) i l s1 Hs) as (t' & E & S & _); [lia|]. rewrite E. cbn [rbind]. apply IH; [exact S|].
      destruct Hin as [->|Hin]; [exfalso; apply Hx; lia|]. exists x. auto.
    - assert (E : set_label t i l s1 = Err IndexError); [|rewrite E; reflexivity]. unfold set_label. rewrite Hs. cbn [nth]. rewrite Z2Nat.id by lia.
      destruct (Z.leb_spec (- m) l), (Z.ltb_spec l m); cbn [andb]; reflexivity || lia.
    - assert (E : set_label t i l s1 = Err IndexError); [|rewrite E; reflexivity]. unfold set_label. rewrite Hs. cbn [nth]. rewrite Z2Nat.id by lia.
      destruct (Z.leb_spec (- m) l), (Z.ltb_spec l m); cbn [andb]; reflexivity || lia.
  Qed.
End Onehot.

(** labels 2, 0, -1 of 3 classes *)
Example C82_hyps_met : (forall l, In l [2; 0; -1]%Z -> (- 3 <= l < 3)%Z) /\ (exists l, In l [2; 3]%Z /\ ~ (- 3 <= l < 3)%Z) /\
  exists t, onehot (S := Z_ops) [2; 0; -1]%Z 3 = Ok t /\ map (fun i => map (fun j => get t [i; j]) (seq 0 3)) (seq 0 3) = [[0; 0; 1]; [1; 0; 0]; [0; 0; 1]]%Z.
Proof.
  split; [|split].
  - intros l Hl. cbn in Hl. lia.
  - exists 3%Z. split; [cbn; auto|lia].
  - eexists. split; [vm_compute; reflexivity|reflexivity].
Qed.
Print Assumptions C82_onehot.
Print Assumptions C82_onehot_documented.
Print Assumptions C82_onehot_rejects.
