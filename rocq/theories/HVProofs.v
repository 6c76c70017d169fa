(** * HVProofs: joint_shuffle and load_HV_data *)
From Coq Require Import Permutation.
From Verif Require Import Base Scalars Tensor Utils UtilsSpec.

Section Shuffle.
  Variable perm : nat -> list nat.
  Hypothesis Hperm : forall n, Permutation (perm n) (seq 0 n).
  Lemma perm_lt n k : In k (perm n) -> k < n.
  Proof. intros H. apply (Permutation_in _ (Hperm n)) in H. apply in_seq in H. lia. Qed.
  Lemma perm_nodup n : NoDup (perm n).
  Proof. apply (Permutation_NoDup (Permutation_sym (Hperm n))). apply seq_NoDup. Qed.
  Lemma perm_len n : List.length (perm n) = n.
  Proof. rewrite (Permutation_length (Hperm n)). apply seq_length. Qed.
  Lemma map_nth_seq {A} (l : list A) d : map (fun i => nth i l d) (seq 0 (List.length l)) = l.
  Proof.
    induction l as [|x l IH]; [reflexivity|]. cbn [List.length seq map nth]. f_equal.
    rewrite <- seq_shift, map_map. exact IH.
  Qed.
  Lemma shuffle_perm {A} (l : list A) d : Permutation (shuffle perm l d) l.
  Proof. unfold shuffle. rewrite (Hperm (List.length l)). rewrite map_nth_seq. reflexivity. Qed.
  Lemma shuffle_len {A} (l : list A) d : List.length (shuffle perm l d) = List.length l.
  Proof. apply Permutation_length, shuffle_perm. Qed.
  Lemma combine_map2 {A B C} (f : A -> B) (g : A -> C) l : combine (map f l) (map g l) = map (fun x => (f x, g x)) l.
  Proof. induction l as [|x l IH]; [reflexivity|]. cbn. rewrite IH. reflexivity. Qed.
  Lemma shuffle_combine {A B} (a : list A) (b : list B) da db : List.length a = List.length b ->
    combine (shuffle perm a da) (shuffle perm b db) = shuffle perm (combine a b) (da, db).
  Proof.
    intros H. unfold shuffle. rewrite combine_length, <- H, Nat.min_id, combine_map2.
    apply map_ext. intros i. rewrite combine_nth by exact H. reflexivity.
  Qed.
  Lemma shuffle_map {A} (F : nat -> A) n d : shuffle perm (map F (seq 0 n)) d = map F (perm n).
  Proof.
    unfold shuffle. rewrite map_length, seq_length. apply map_ext_in. intros i Hi. apply perm_lt in Hi.
    rewrite (nth_indep _ d (F 0)) by (rewrite map_length, seq_length; exact Hi). rewrite map_nth, seq_nth by exact Hi. reflexivity.
  Qed.
End Shuffle.

(** ** bits *)
Lemma bits_zero n L : n < 2 ^ L -> (forall k, k < L -> Nat.testbit n k = false) -> n = 0.
Proof.
  intros Hn H. apply Nat.bits_inj_0. intros k. destruct (Nat.lt_ge_cases k L) as [Hk|Hk]; [apply H; exact Hk|].
  destruct n as [|n]; [apply Nat.bits_0|]. apply Nat.bits_above_log2.
  apply Nat.log2_lt_pow2; [lia|]. eapply Nat.lt_le_trans; [exact Hn|]. apply Nat.pow_le_mono_r; lia.
Qed.
Lemma bits_high n L k : n < 2 ^ L -> L <= k -> Nat.testbit n k = false.
Proof.
  intros Hn Hk. destruct n as [|n]; [apply Nat.bits_0|]. apply Nat.bits_above_log2.
  apply Nat.log2_lt_pow2; [lia|]. eapply Nat.lt_le_trans; [exact Hn|]. apply Nat.pow_le_mono_r; lia.
Qed.
Lemma bits_eq n m L : n < 2 ^ L -> m < 2 ^ L -> (forall k, k < L -> Nat.testbit n k = Nat.testbit m k) -> n = m.
Proof.
  intros Hn Hm H. apply Nat.bits_inj. intros k. destruct (Nat.lt_ge_cases k L) as [Hk|Hk]; [apply H; exact Hk|].
  rewrite !(bits_high _ L) by assumption. reflexivity.
Qed.
Lemma pow2_pos L : 0 < 2 ^ L.
Proof. apply Nat.neq_0_lt_0, Nat.pow_nonzero. lia. Qed.
Lemma bits_ones n L : n < 2 ^ L -> (forall k, k < L -> Nat.testbit n k = true) -> n = 2 ^ L - 1.
Proof.
  intros Hn H. pose proof (pow2_pos L). apply (bits_eq _ _ L); [exact Hn|lia|]. intros k Hk. rewrite H by exact Hk.
  symmetry. replace (2 ^ L - 1) with (Nat.ones L) by (rewrite Nat.ones_equiv; lia). apply Nat.ones_spec_low. exact Hk.
Qed.
Lemma bits_make L : forall g : nat -> bool, exists n, n < 2 ^ L /\ forall k, k < L -> Nat.testbit n k = g k.
Proof.
  induction L as [|L IH]; intros g; [exists 0; split; [cbn; lia|lia]|].
  destruct (IH (fun k => g (S k))) as (m & Hm & Hb).
  exists (2 * m + if g 0 then 1 else 0). split; [cbn [Nat.pow]; destruct (g 0); lia|].
  intros [|k] Hk.
  - destruct (g 0); [apply Nat.testbit_odd_0|rewrite Nat.add_0_r; apply Nat.testbit_even_0].
  - rewrite <- (Hb k) by lia. destruct (g 0); [apply Nat.testbit_odd_succ; lia|rewrite Nat.add_0_r; apply Nat.testbit_even_succ; lia].
Qed.

(** ** the images *)
Section HV.
  Variable L : nat.
  Hypothesis HL : 2 <= L.
  Definition img (k : nat) : tensor nat := if k mod 2 =? 0 then h_image L (k / 2 + 1) else v_image L (k / 2 + 1).
  Definition npat := 2 ^ L - 2.
  Lemma pow_S : 2 ^ L = 2 * 2 ^ (L - 1).
  Proof. replace L with (S (L - 1)) at 1 by lia. reflexivity. Qed.
  Lemma npat_pos : 2 <= npat.
  Proof. unfold npat. assert (2 ^ 2 <= 2 ^ L) by (apply Nat.pow_le_mono_r; lia). cbn in H. lia. Qed.
  Lemma sizes : 4 * (2 ^ (L - 1) - 1) = 2 * npat /\ 4 * (2 ^ (L - 1) - 1) / 2 = npat /\ 4 * (2 ^ (L - 1) - 1) / 4 = 2 ^ (L - 1) - 1.
  Proof.
    pose proof pow_S. unfold npat. repeat split; [lia| |].
    - replace (4 * (2 ^ (L - 1) - 1)) with ((2 ^ L - 2) * 2) by lia. apply Nat.div_mul. lia.
    - rewrite Nat.mul_comm. apply Nat.div_mul. lia.
  Qed.
  Lemma images_map n : forall i, flat_map (fun i => [h_image L i; v_image L i]) (seq (i + 1) n) = map img (seq (2 * i) (2 * n)).
  Proof.
    induction n as [|n IH]; intros i; [reflexivity|]. replace (2 * S n) with (S (S (2 * n))) by lia.
    cbn [seq flat_map map app]. replace (S (S (2 * i))) with (2 * (i + 1)) by lia. replace (S (i + 1)) with (i + 1 + 1) by lia.
    rewrite IH. unfold img. replace (2 * i) with (i * 2) by lia. rewrite Nat.mod_mul, Nat.div_mul by lia.
    replace (S (i * 2)) with (1 + i * 2) by lia. rewrite Nat.mod_add, Nat.div_add by lia. reflexivity.
  Qed.
  Lemma labels_map n : forall i, flat_map (fun _ => [0; 1]) (seq (i + 1) n) = map (fun k => k mod 2) (seq (2 * i) (2 * n)).
  Proof.
    induction n as [|n IH]; intros i; [reflexivity|]. replace (2 * S n) with (S (S (2 * n))) by lia.
    cbn [seq flat_map map app]. replace (S (S (2 * i))) with (2 * (i + 1)) by lia. replace (S (i + 1)) with (i + 1 + 1) by lia.
    rewrite IH. replace (2 * i) with (i * 2) by lia. rewrite Nat.mod_mul by lia.
    replace (S (i * 2)) with (1 + i * 2) by lia. rewrite Nat.mod_add by lia. reflexivity.
  Qed.
  Lemma pbit01 i j : pattern_bit L i j = 0 \/ pattern_bit L i j = 1.
  Proof. unfold pattern_bit. destruct (Nat.testbit i (L - 1 - j)); auto. Qed.
  Lemma pbit_diff i : 0 < i -> i < 2 ^ L - 1 -> exists j j', j < L /\ j' < L /\ pattern_bit L i j = 0 /\ pattern_bit L i j' = 1.
  Proof.
    intros H0 H1.
    assert (A : forall b, (exists k, k < L /\ Nat.testbit i k = b) \/ (forall k, k < L -> Nat.testbit i k = negb b)).
    { intros b. clear. induction L as [|n IH]; [right; lia|]. destruct IH as [(k & Hk & E)|IH]; [left; exists k; split; [lia|exact E]|].
      destruct (Bool.bool_dec (Nat.testbit i n) b) as [E|E]; [left; exists n; split; [lia|exact E]|].
      right. intros k Hk. destruct (Nat.eq_dec k n) as [->|]; [destruct (Nat.testbit i n), b; cbn; congruence|]. apply IH. lia. }
    destruct (A false) as [(k & Hk & E)|A1]; [|exfalso; apply bits_ones in A1; lia].
    destruct (A true) as [(k' & Hk' & E')|A2]; [|exfalso; apply bits_zero in A2; lia].
    exists (L - 1 - k), (L - 1 - k'). unfold pattern_bit.
    replace (L - 1 - (L - 1 - k)) with k by lia. replace (L - 1 - (L - 1 - k')) with k' by lia. rewrite E, E'.
    split; [lia|]. split; [lia|]. auto.
  Qed.
  Lemma pbit_inj i i' : i < 2 ^ L -> i' < 2 ^ L -> (forall j, j < L -> pattern_bit L i j = pattern_bit L i' j) -> i = i'.
  Proof.
    intros H H' E. apply (bits_eq _ _ L H H'). intros k Hk. specialize (E (L - 1 - k) ltac:(lia)). unfold pattern_bit in E.
    replace (L - 1 - (L - 1 - k)) with k in E by lia. destruct (Nat.testbit i k), (Nat.testbit i' k); congruence.
  Qed.
  Lemma img_shape k : shp (img k) = [L; L].
  Proof. unfold img. destruct (k mod 2 =? 0); reflexivity. Qed.
  Lemma img_idx k : k < 2 * npat -> 0 < k / 2 + 1 /\ k / 2 + 1 < 2 ^ L - 1.
  Proof. intros H. assert (k / 2 < npat) by (apply Nat.div_lt_upper_bound; lia). unfold npat in *. lia. Qed.
  Lemma img_ok k : k < 2 * npat -> zero_one (img k) /\ not_constant (img k) /\
    ((k mod 2 = 0 /\ row_constant L (img k)) \/ (k mod 2 = 1 /\ col_constant L (img k))).
  Proof.
    intros Hk. apply img_idx in Hk as [H0 H1]. destruct (pbit_diff _ H0 H1) as (j & j' & Hj & Hj' & E & E').
    assert (V : forall a b, a < L -> b < L -> valid [L; L] [a; b]) by (intros; apply valid_2; auto).
    unfold img. pose proof (Nat.mod_upper_bound k 2 ltac:(lia)). destruct (Nat.eqb_spec (k mod 2) 0) as [Ek|Ek].
    - split; [intros i _; apply pbit01|]. split.
      + exists [j; 0], [j'; 0]. cbn [shp h_image get]. split; [apply V; lia|]. split; [apply V; lia|]. cbn [nth]. congruence.
      + left. split; [exact Ek|]. split; [reflexivity|]. intros. reflexivity.
    - split; [intros i _; apply pbit01|]. split.
      + exists [0; j], [0; j']. cbn [shp v_image get]. split; [apply V; lia|]. split; [apply V; lia|]. cbn [nth]. congruence.
      + right. split; [lia|]. split; [reflexivity|]. intros. reflexivity.
  Qed.
  Lemma img_inj k k' : k < 2 * npat -> k' < 2 * npat -> teq (img k) (img k') -> k = k'.
  Proof.
    intros Hk Hk' [_ E]. pose proof (Nat.mod_upper_bound k 2 ltac:(lia)). pose proof (Nat.mod_upper_bound k' 2 ltac:(lia)).
    rewrite img_shape in E. destruct (img_idx k Hk) as [A1 A2]. destruct (img_idx k' Hk') as [B1 B2].
    assert (V : forall a b, a < L -> b < L -> valid [L; L] [a; b]) by (intros; apply valid_2; auto).
    pose proof (Nat.div_mod_eq k 2). pose proof (Nat.div_mod_eq k' 2).
    unfold img in E. destruct (Nat.eqb_spec (k mod 2) 0) as [Ek|Ek], (Nat.eqb_spec (k' mod 2) 0) as [Ek'|Ek'].
    - assert (k / 2 + 1 = k' / 2 + 1); [|lia]. apply pbit_inj; [lia|lia|]. intros j Hj. apply (E [j; 0]). apply V; lia.
    - exfalso. destruct (pbit_diff _ A1 A2) as (j & j' & Hj & Hj' & F & F').
      pose proof (E [j; 0] (V j 0 Hj ltac:(lia))) as E1. pose proof (E [j'; 0] (V j' 0 Hj' ltac:(lia))) as E2. cbn [get h_image v_image nth] in E1, E2. congruence.
    - exfalso. destruct (pbit_diff _ A1 A2) as (j & j' & Hj & Hj' & F & F').
      pose proof (E [0; j] (V 0 j ltac:(lia) Hj)) as E1. pose proof (E [0; j'] (V 0 j' ltac:(lia) Hj')) as E2. cbn [get h_image v_image nth] in E1, E2. congruence.
    - assert (k / 2 + 1 = k' / 2 + 1); [|lia]. apply pbit_inj; [lia|lia|]. intros j Hj. apply (E [0; j]). apply V; lia.
  Qed.
  Lemma count_mod2 n : forall s, count_occ Nat.eq_dec (map (fun k => k mod 2) (seq (2 * s) (2 * n))) 0 = n
                              /\ count_occ Nat.eq_dec (map (fun k => k mod 2) (seq (2 * s) (2 * n))) 1 = n.
  Proof.
    induction n as [|n IH]; intros s; [split; reflexivity|]. replace (2 * S n) with (S (S (2 * n))) by lia. cbn [seq map].
    replace (S (S (2 * s))) with (2 * (s + 1)) by lia. replace (2 * s) with (s * 2) by lia.
    replace (S (s * 2)) with (1 + s * 2) by lia. rewrite Nat.mod_add, Nat.mod_mul by lia. change (1 mod 2) with 1.
    destruct (IH (s + 1)) as [I0 I1]. cbn [count_occ]. destruct (Nat.eq_dec 0 0); [|contradiction]. destruct (Nat.eq_dec 0 1); [discriminate|].
    destruct (Nat.eq_dec 1 0); [discriminate|]. destruct (Nat.eq_dec 1 1); [|contradiction]. rewrite I0, I1. auto.
  Qed.
  Lemma img_complete t : zero_one t -> not_constant t -> row_constant L t \/ col_constant L t ->
    exists k, k < 2 * npat /\ teq t (img k).
  Proof.
    intros H01 (x & y & Hx & Hy & Hne) Hrc.
    assert (W : forall f : nat -> nat, (forall j, j < L -> f j = 0 \/ f j = 1) -> (exists a b, a < L /\ b < L /\ f a <> f b) ->
       exists i, 0 < i /\ i < 2 ^ L - 1 /\ forall j, j < L -> pattern_bit L i j = f j).
    { intros f Hf (a & b & Ha & Hb & Hab). destruct (bits_make L (fun k => f (L - 1 - k) =? 1)) as (i & Hi & E).
      assert (Ef : forall j, j < L -> pattern_bit L i j = f j).
      { intros j Hj. unfold pattern_bit. rewrite E by lia. replace (L - 1 - (L - 1 - j)) with j by lia.
        destruct (Hf j Hj) as [-> | ->]; reflexivity. }
      exists i. split; [|split; [|exact Ef]].
      - destruct i as [|i]; [|lia]. exfalso. apply Hab. rewrite <- !Ef by assumption. unfold pattern_bit. rewrite !Nat.bits_0. reflexivity.
      - destruct (Nat.eq_dec i (2 ^ L - 1)) as [->|]; [|lia]. exfalso. apply Hab. rewrite <- !Ef by assumption. unfold pattern_bit.
        replace (2 ^ L - 1) with (Nat.ones L) by (rewrite Nat.ones_equiv; lia). rewrite !Nat.ones_spec_low by lia. reflexivity. }
    assert (V : forall a b, a < L -> b < L -> valid [L; L] [a; b]) by (intros; apply valid_2; auto).
    assert (D : forall i, valid [L; L] i -> exists a b, i = [a; b] /\ a < L /\ b < L).
    { intros i H. apply valid_cons in H as (a & r & -> & Ha & H). apply valid_cons in H as (b & r' & -> & Hb & H). apply valid_nil in H. subst. eauto. }
    assert (G : forall i c, 0 < i -> i < 2 ^ L - 1 -> c < 2 -> 2 * (i - 1) + c < 2 * npat /\ (2 * (i - 1) + c) mod 2 = c /\ (2 * (i - 1) + c) / 2 + 1 = i).
    { intros i c H0 H1 Hc. split; [unfold npat; lia|]. replace (2 * (i - 1) + c) with (c + (i - 1) * 2) by lia.
      rewrite Nat.mod_add, Nat.div_add by lia. rewrite Nat.mod_small, Nat.div_small by lia. split; [reflexivity|lia]. }
    destruct Hrc as [[Hs Hc]|[Hs Hc]].
    - destruct (W (fun j => get t [j; 0])) as (i & H0 & H1 & E).
      + intros j Hj. apply H01. rewrite Hs. apply V; lia.
      + rewrite Hs in Hx, Hy. destruct (D _ Hx) as (a & b & -> & Ha & Hb). destruct (D _ Hy) as (a' & b' & -> & Ha' & Hb').
        exists a, a'. split; [exact Ha|]. split; [exact Ha'|]. rewrite (Hc a b 0), (Hc a' b' 0) in Hne by lia. exact Hne.
      + destruct (G i 0 H0 H1 ltac:(lia)) as (G1 & G2 & G3). exists (2 * (i - 1) + 0). split; [exact G1|].
        split; [rewrite img_shape; exact Hs|]. rewrite Hs. intros z Hz. destruct (D _ Hz) as (a & b & -> & Ha & Hb).
        unfold img. rewrite G2, G3. cbn [Nat.eqb get h_image nth]. rewrite E by exact Ha. apply Hc; lia.
    - destruct (W (fun j => get t [0; j])) as (i & H0 & H1 & E).
      + intros j Hj. apply H01. rewrite Hs. apply V; lia.
      + rewrite Hs in Hx, Hy. destruct (D _ Hx) as (a & b & -> & Ha & Hb). destruct (D _ Hy) as (a' & b' & -> & Ha' & Hb').
        exists b, b'. split; [exact Hb|]. split; [exact Hb'|]. rewrite (Hc a 0 b), (Hc a' 0 b') in Hne by lia. exact Hne.
      + destruct (G i 1 H0 H1 ltac:(lia)) as (G1 & G2 & G3). exists (2 * (i - 1) + 1). split; [exact G1|].
        split; [rewrite img_shape; exact Hs|]. rewrite Hs. intros z Hz. destruct (D _ Hz) as (a & b & -> & Ha & Hb).
        unfold img. rewrite G2, G3. cbn [Nat.eqb get v_image nth]. rewrite E by exact Hb. apply Hc; lia.
  Qed.
End HV.
