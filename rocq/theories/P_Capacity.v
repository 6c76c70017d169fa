(** * P_Capacity: C111, which distributions a bond dimension can represent. *)
From Coq Require Import Ring_theory Ring Reals Lra Permutation.
From Verif Require Import Base Scalars Tensor Utils2 MpsBase Embeddings ProbMps Spec MatSpec ModelSpec LinAlg LogNorm ProbProofs EmbProofs P_Prob P_Sym2 P_Gibbs.
Open Scope nat_scope.

(** ** Specification: the batch that holds one word *)
Definition word_batch (w : list nat) : tensor Z := mkT [1; List.length w] (fun i => Z.of_nat (nth (nth 1 i 0) w 0)).
Definition constant_word (w : list nat) : Prop := exists a, forall k, In k w -> k = a.

(** ** More vectors than dimensions are linearly dependent *)
Section Dep.
  Variable K : numfield.
  Add Ring KrCap : (rth K).
  Definition kinv (z : K) : K := smul (nofR K (/ (nabs K z * nabs K z))%R) (nconj K z).
  Lemma kinv_r z : z <> s0 -> smul z (kinv z) = s1.
  Proof.
    intros Hz. unfold kinv. transitivity (smul (nofR K (/ (nabs K z * nabs K z))%R) (smul z (nconj K z))); [ring|].
    rewrite nabs_sq, <- nof_mul, <- (nof_1 K). f_equal. apply Rinv_l. intros E. apply Rmult_integral in E. apply Hz, nabs_0. tauto.
  Qed.
  Lemma k_eq_dec (z : K) : z = s0 \/ z <> s0.
  Proof.
    destruct (Req_dec (nabs K z) 0) as [E|E]; [left; apply nabs_0, E|right]. intros ->. apply E. rewrite <- (nof_0 K), nabs_of. apply Rabs_R0.
  Qed.
  Lemma s1_nz : s1 (s := K) <> s0.
  Proof.
    intros E. pose proof (nabs_of K 1) as H1. rewrite nof_1, E, <- (nof_0 K), nabs_of, Rabs_R0, Rabs_R1 in H1. lra.
  Qed.
  Lemma bsum_out m : forall p (f : nat -> K), p <= m -> bsum (S m) f = sadd (f p) (bsum m (fun i => f (if i <? p then i else S i))).
  Proof.
    induction m as [|m IH]; intros p f Hp.
    - replace p with 0 by lia. cbn. ring.
    - change (bsum (S (S m)) f) with (sadd (bsum (S m) f) (f (S m))). destruct (Nat.eq_dec p (S m)) as [->|Hne].
      + rewrite (bsum_ext (S m) (fun i => f (if i <? S m then i else S i)) f); [ring|].
        intros i Hi. replace (i <? S m) with true by (symmetry; apply Nat.ltb_lt; exact Hi). reflexivity.
      + rewrite (IH p f) by lia. cbn [bsum]. replace (m <? p) with false by (symmetry; apply Nat.ltb_ge; lia). ring.
  Qed.
  Lemma search m (g : nat -> K) : (exists p, p < m /\ g p <> s0) \/ (forall p, p < m -> g p = s0).
  Proof.
    induction m as [|m [(p & Hp & Hg)|IH]]; [right; intros; lia|left; exists p; split; [lia|exact Hg]|].
    destruct (k_eq_dec (g m)) as [E|E]; [right|left; exists m; split; [lia|exact E]].
    intros p Hp. destruct (Nat.eq_dec p m) as [->|Hne]; [exact E|apply IH; lia].
  Qed.
  Lemma dependent n : forall A : nat -> nat -> K, exists a : nat -> K, (exists i, i < S n /\ a i <> s0) /\
    forall r, r < n -> bsum (S n) (fun i => smul (a i) (A i r)) = s0.
  Proof.
    induction n as [|n IH]; intros A.
    - exists (fun _ => s1). split; [exists 0; split; [lia|apply s1_nz]|intros; lia].
    - destruct (search (S (S n)) (fun p => A p n)) as [(p & Hp & Hg)|Hz].
      + set (sg := fun i => if i <? p then i else S i).
        set (cf := fun i => smul (A (sg i) n) (kinv (A p n))).
        destruct (IH (fun i r => sadd (A (sg i) r) (ropp (smul (cf i) (A p r))))) as (b & (i0 & Hi0 & Hb) & Hs).
        set (ap := ropp (bsum (S n) (fun i => smul (b i) (cf i)))).
        exists (fun i => if i =? p then ap else b (if i <? p then i else pred i)). split.
        * exists (sg i0). unfold sg. destruct (Nat.ltb_spec i0 p) as [Hl|Hl].
          -- split; [lia|]. replace (i0 =? p) with false by (symmetry; apply Nat.eqb_neq; lia). replace (i0 <? p) with true by (symmetry; apply Nat.ltb_lt; lia). exact Hb.
          -- split; [lia|]. replace (S i0 =? p) with false by (symmetry; apply Nat.eqb_neq; lia). replace (S i0 <? p) with false by (symmetry; apply Nat.ltb_ge; lia). exact Hb.
        * intros r Hr. rewrite (bsum_out (S n) p) by lia. rewrite Nat.eqb_refl.
          rewrite (bsum_ext (S n) _ (fun i => smul (b i) (A (sg i) r))).
          2:{ intros i Hi. unfold sg. destruct (Nat.ltb_spec i p) as [Hl|Hl].
              - replace (i =? p) with false by (symmetry; apply Nat.eqb_neq; lia). replace (i <? p) with true by (symmetry; apply Nat.ltb_lt; lia). reflexivity.
              - replace (S i =? p) with false by (symmetry; apply Nat.eqb_neq; lia). replace (S i <? p) with false by (symmetry; apply Nat.ltb_ge; lia). reflexivity. }
          unfold ap.
          assert (G : sadd (bsum (S n) (fun i => smul (b i) (A (sg i) r))) (ropp (smul (bsum (S n) (fun i => smul (b i) (cf i))) (A p r))) = s0).
          { destruct (Nat.eq_dec r n) as [->|Hne].
            - rewrite <- (bsum_mul_r K).
              rewrite (bsum_ext (S n) (fun k => smul (smul (b k) (cf k)) (A p n)) (fun i => smul (b i) (A (sg i) n))); [ring|].
              intros i Hi. unfold cf. transitivity (smul (smul (b i) (A (sg i) n)) (smul (A p n) (kinv (A p n)))); [ring|]. rewrite (kinv_r _ Hg). ring.
            - pose proof (Hs r ltac:(lia)) as E. rewrite <- E. rewrite <- (bsum_mul_r K).
              transitivity (sadd (bsum (S n) (fun i => smul (b i) (A (sg i) r))) (bsum (S n) (fun k => smul (ropp s1) (smul (smul (b k) (cf k)) (A p r))))).
              { rewrite (bsum_mul_l K). ring. }
              rewrite <- (bsum_add K). apply bsum_ext. intros i Hi. ring. }
          rewrite <- G. ring.
      + destruct (IH A) as (a & (i & Hi & Ha) & Hs). exists (fun i => if i =? S n then s0 else a i). split.
        * exists i. split; [lia|]. replace (i =? S n) with false by (symmetry; apply Nat.eqb_neq; lia). exact Ha.
        * intros r Hr. change (bsum (S (S n)) ?f) with (sadd (bsum (S n) f) (f (S n))). cbv beta. rewrite Nat.eqb_refl.
          rewrite (bsum_ext (S n) _ (fun i => smul (a i) (A i r))).
          2:{ intros k Hk. replace (k =? S n) with false by (symmetry; apply Nat.eqb_neq; lia). reflexivity. }
          destruct (Nat.eq_dec r n) as [->|Hne]; [|rewrite (Hs r) by lia; ring].
          rewrite (bsum_zero K (S n)); [ring|]. intros k Hk. rewrite Hz by lia. ring.
  Qed.
  (** a matrix with D columns times one with D rows cannot be diagonal of size D + 1 with a diagonal free of zeros *)
  Lemma no_wide_diagonal D (L R0 : nat -> nat -> K) :
    (forall i, i < S D -> bsum D (fun r => smul (L i r) (R0 r i)) <> s0) ->
    exists i j, i < S D /\ j < S D /\ i <> j /\ bsum D (fun r => smul (L i r) (R0 r j)) <> s0.
  Proof.
    intros Hd. destruct (dependent D L) as (a & (j & Hj & Ha) & Hs).
    destruct (search (S D) (fun i => if i =? j then s0 else bsum D (fun r => smul (L i r) (R0 r j)))) as [(i & Hi & Hg)|Hz].
    - exists i, j. destruct (i =? j) eqn:E; [exfalso; apply Hg; reflexivity|]. apply Nat.eqb_neq in E. auto.
    - exfalso.
      assert (E : bsum (S D) (fun i => smul (a i) (bsum D (fun r => smul (L i r) (R0 r j)))) = s0).
      { transitivity (bsum (S D) (fun i => bsum D (fun r => smul (smul (a i) (L i r)) (R0 r j)))).
        { apply bsum_ext. intros i Hi. rewrite <- (bsum_mul_l K). apply bsum_ext. intros; ring. }
        rewrite (bsum_swap K). apply (bsum_zero K). intros r Hr. rewrite (bsum_mul_r K), (Hs r Hr). ring. }
      rewrite (bsum_ext (S D) _ (fun i => if i =? j then smul (a i) (bsum D (fun r => smul (L i r) (R0 r j))) else s0)) in E.
      2:{ intros i Hi. specialize (Hz i Hi). cbv beta in Hz. destruct (i =? j); [reflexivity|]. rewrite Hz. ring. }
      rewrite (bsum_delta K (S D) j _ Hj) in E. specialize (Hd j Hj).
      apply Ha. transitivity (smul (smul (a j) (bsum D (fun r => smul (L j r) (R0 r j)))) (kinv (bsum D (fun r => smul (L j r) (R0 r j))))).
      { transitivity (smul (a j) (smul (bsum D (fun r => smul (L j r) (R0 r j))) (kinv (bsum D (fun r => smul (L j r) (R0 r j)))))); [rewrite (kinv_r _ Hd); ring|ring]. }
      rewrite E. ring.
  Qed.
End Dep.

(** ** A cut of the sequence *)
Section Cut.
  Variable K : numfield.
  Add Ring KrCap2 : (rth K).
  Lemma cut_amplitude D (v w : vec K) (site : nat -> nat -> mat K) xs ys :
    amplitude D v w site (xs ++ ys)
    = bsum D (fun r => smul (bsum D (fun i => smul (v i) (chain (sites D site 0 xs) i r))) (bsum D (fun j => smul (chain (sites D site (List.length xs) ys) r j) (w j)))).
  Proof.
    unfold amplitude, sandwich. rewrite (sites_app K). cbn [Nat.add].
    assert (Hc : forall s, cols K D (sites D site s xs) = D).
    { induction xs as [|x xs IH]; intros s; [reflexivity|]. cbn [sites]. destruct xs as [|y xs]; [reflexivity|]. exact (IH (S s)). }
    transitivity (bsum D (fun i => bsum D (fun j => bsum D (fun r => smul (smul (v i) (chain (sites D site 0 xs) i r)) (smul (chain (sites D site (List.length xs) ys) r j) (w j)))))).
    { apply bsum_ext. intros i Hi. apply bsum_ext. intros j Hj. rewrite (chain_app K D _ _ i j Hi), Hc. unfold mmul.
      rewrite <- (bsum_mul_r K), <- (bsum_mul_l K). apply bsum_ext. intros; ring. }
    transitivity (bsum D (fun r => bsum D (fun i => bsum D (fun j => smul (smul (v i) (chain (sites D site 0 xs) i r)) (smul (chain (sites D site (List.length xs) ys) r j) (w j)))))).
    { apply (bsum_swap3 K). }
    apply bsum_ext. intros r Hr. rewrite <- (bsum_mul_r K). apply bsum_ext. intros i Hi. apply (bsum_mul_l K).
  Qed.
End Cut.
Lemma word_batch_row w n : List.length w = n -> row_letters (word_batch w) n 0 = w.
Proof.
  intros <-. unfold row_letters, word_batch. cbn [get nth]. transitivity (map (fun t => nth t w 0) (seq 0 (List.length w))).
  - apply map_ext. intros t. apply Nat2Z.id.
  - induction w as [|x w IH]; [reflexivity|]. cbn [List.length seq map nth]. f_equal. rewrite <- seq_shift, map_map. exact IH.
Qed.
Lemma word_batch_wf {K : numfield} w n d : List.length w = n -> (forall k, In k w -> k < d) -> wf_input (K := K) (TLong (word_batch w)) 1 n d.
Proof.
  intros Hl Hk. split; [unfold word_batch; cbn [shp]; rewrite Hl; reflexivity|]. intros b t Hb Ht. unfold word_batch. cbn [get nth].
  assert (nth t w 0 < d) by (apply Hk, nth_In; lia). lia.
Qed.
Section Limit.
  Variable K : numfield.
  Add Ring KrCap3 : (rth K).
  (** a one-word batch has a positive probability iff its amplitude is not zero *)
  Lemma word_positive (uniform : bool) (m : pmps K) (slim par : bool) (n d D : nat) (w : list nat) :
    shapes_of K uniform m n d D -> pm_emb K m = None -> 0 < n -> (slim = true -> pm_bias K m = None) ->
    List.length w = n -> (forall k, In k w -> k < d) ->
    (psi K uniform m n d D (TLong (word_batch w)) 0 <> s0 <->
     exists T, snd (fwd K uniform m (TLong (word_batch w)) slim par) = Ok T /\ (0 < prob_of (get T [0%nat]))%R).
  Proof.
    intros Hsh He Hn Hsl Hl Hk. pose proof (word_batch_wf (K := K) w n d Hl Hk) as Hx.
    pose proof (C11_zero_amplitude_partial K uniform m (TLong (word_batch w)) slim par 1 n d D Hsh He Hx Hn Hsl) as H. split.
    - intros Hp. pose proof (psi_Z_pos K uniform m (word_batch w) 1 n d D 0 Hx ltac:(lia) Hp) as HZ.
      destruct (snd (fwd K uniform m (TLong (word_batch w)) slim par)) as [T|e].
      + destruct H as [_ H]. exists T. split; [reflexivity|]. rewrite (proj2 (H 0 ltac:(lia)) Hp). cbn [prob_of]. apply exp_pos.
      + exfalso. destruct H as [_ [H|(b & Hb & H)]]; [lra|]. replace b with 0 in H by lia. exact (Hp H).
    - intros (T & E & HT) Hz. rewrite E in H. destruct H as [_ H]. rewrite (proj1 (H 0 ltac:(lia)) Hz) in HT. cbn [prob_of] in HT. lra.
  Qed.
  (** *** C111: across any cut at most bond_dim alternatives can be told apart: among bond_dim + 1 first parts and second parts,
      if every matching pair has a positive probability then so has some pair that does not match *)
  Theorem C111_rank (uniform : bool) (m : pmps K) (slim par : bool) (n d D k : nat) (u v : nat -> list nat) :
    shapes_of K uniform m n d D -> pm_emb K m = None -> 0 < n -> (slim = true -> pm_bias K m = None) -> k <= n ->
    (forall i, i < S D -> List.length (u i) = k /\ List.length (v i) = n - k /\ (forall a, In a (u i ++ v i) -> a < d)) ->
    (forall i, i < S D -> exists T, snd (fwd K uniform m (TLong (word_batch (u i ++ v i))) slim par) = Ok T /\ (0 < prob_of (get T [0%nat]))%R) ->
    exists i j, i < S D /\ j < S D /\ i <> j /\
      exists T, snd (fwd K uniform m (TLong (word_batch (u i ++ v j))) slim par) = Ok T /\ (0 < prob_of (get T [0%nat]))%R.
  Proof.
    intros Hsh He Hn Hsl Hk Hw Hd.
    assert (Hlen : forall i j, i < S D -> j < S D -> List.length (u i ++ v j) = n).
    { intros i j Hi Hj. rewrite app_length. destruct (Hw i Hi) as (-> & _ & _). destruct (Hw j Hj) as (_ & -> & _). lia. }
    assert (Hlet : forall i j, i < S D -> j < S D -> forall a, In a (u i ++ v j) -> a < d).
    { intros i j Hi Hj a Ha. destruct (Hw i Hi) as (_ & _ & Hi'). destruct (Hw j Hj) as (_ & _ & Hj'). apply in_app_iff in Ha as [Ha|Ha]; [apply Hi'|apply Hj']; apply in_or_app; auto. }
    set (st := letter_site (pm_core K m) uniform (pm_bias K m)).
    set (L := fun i r => bsum D (fun p => smul (edge_at (pm_edge K m) 0 p) (chain (sites D st 0 (u i)) p r))).
    set (R0 := fun r j => bsum D (fun q => smul (chain (sites D st k (v j)) r q) (edge_at (pm_edge K m) 1 q))).
    assert (E : forall i j, i < S D -> j < S D -> psi K uniform m n d D (TLong (word_batch (u i ++ v j))) 0 = bsum D (fun r => smul (L i r) (R0 r j))).
    { intros i j Hi Hj. unfold psi, row_amp. rewrite (word_batch_row (u i ++ v j) n (Hlen i j Hi Hj)). rewrite cut_amplitude.
      destruct (Hw i Hi) as (-> & _ & _). reflexivity. }
    destruct (no_wide_diagonal K D L R0) as (i & j & Hi & Hj & Hne & H).
    - intros i Hi. rewrite <- (E i i Hi Hi). apply (word_positive uniform m slim par n d D (u i ++ v i) Hsh He Hn Hsl (Hlen i i Hi Hi) (Hlet i i Hi Hi)). exact (Hd i Hi).
    - exists i, j. split; [exact Hi|]. split; [exact Hj|]. split; [exact Hne|].
      apply (word_positive uniform m slim par n d D (u i ++ v j) Hsh He Hn Hsl (Hlen i j Hi Hj) (Hlet i j Hi Hj)). rewrite (E i j Hi Hj). exact H.
  Qed.
  (** so no model of bond dimension D gives positive probability to exactly the constant words over more than D letters *)
  Theorem C111_tight (uniform : bool) (m : pmps K) (slim par : bool) (n d D : nat) :
    shapes_of K uniform m n d D -> pm_emb K m = None -> 1 < n -> (slim = true -> pm_bias K m = None) -> D < d ->
    ~ (forall w, In w (words d n) ->
        ((exists T, snd (fwd K uniform m (TLong (word_batch w)) slim par) = Ok T /\ (0 < prob_of (get T [0%nat]))%R) <-> constant_word w)).
  Proof.
    intros Hsh He Hn Hsl HD H.
    destruct (C111_rank uniform m slim par n d D 1 (fun i => [i]) (fun i => repeat i (n - 1)) Hsh He ltac:(lia) Hsl ltac:(lia)) as (i & j & Hi & Hj & Hne & HT).
    - intros i Hi. split; [reflexivity|]. split; [apply repeat_length|]. intros a [<-|Ha]; [lia|]. apply repeat_spec in Ha. lia.
    - intros i Hi. apply H; [|exists i; intros a [<-|Ha]; [reflexivity|apply (repeat_spec _ _ _ Ha)]].
      apply in_words; [cbn; rewrite repeat_length; lia|]. intros a [<-|Ha]; [lia|]. apply repeat_spec in Ha. lia.
    - apply H in HT.
      + destruct HT as [a Ha]. apply Hne. rewrite (Ha i) by (left; reflexivity). symmetry. apply Ha. right. destruct (n - 1) as [|n'] eqn:E; [lia|]. left. reflexivity.
      + apply in_words; [cbn; rewrite repeat_length; lia|]. intros a [<-|Ha]; [lia|]. apply repeat_spec in Ha. lia.
  Qed.
End Limit.

(** ** Diagonal site matrices *)
Section Diag.
  Variable K : numfield.
  Add Ring KrCap4 : (rth K).
  Variables (D : nat) (g : nat -> nat -> nat -> K).
  Definition diag_site (t k : nat) : mat K := fun p q => if p =? q then g t k p else s0.
  Fixpoint gprod (s : nat) (w : list nat) (p : nat) : K :=
    match w with [] => s1 | k :: w => smul (g s k p) (gprod (S s) w p) end.
  Lemma diag_chain w : forall s p q, p < D -> chain (sites D diag_site s w) p q = if p =? q then gprod s w p else s0.
  Proof.
    induction w as [|k w IH]; intros s p q Hp; cbn [sites gprod].
    - cbn [chain]. unfold delta. reflexivity.
    - rewrite (chain_cons K). unfold mmul.
      rewrite (bsum_ext D _ (fun r => if r =? p then smul (g s k p) (chain (sites D diag_site (S s) w) r q) else s0)).
      + rewrite (bsum_delta K D p (fun r => smul (g s k p) (chain (sites D diag_site (S s) w) r q)) Hp), (IH (S s) p q Hp). destruct (p =? q); ring.
      + intros r Hr. unfold diag_site at 1. rewrite Nat.eqb_sym. destruct (r =? p); ring.
  Qed.
  Lemma diag_amplitude (v w : vec K) xs : amplitude D v w diag_site xs = bsum D (fun p => smul (smul (v p) (gprod 0 xs p)) (w p)).
  Proof.
    unfold amplitude, sandwich. apply bsum_ext. intros p Hp.
    rewrite (bsum_ext D _ (fun q => if q =? p then smul (smul (v p) (gprod 0 xs p)) (w q) else s0)).
    - exact (bsum_delta K D p (fun q => smul (smul (v p) (gprod 0 xs p)) (w q)) Hp).
    - intros q Hq. rewrite diag_chain by exact Hp. rewrite Nat.eqb_sym. destruct (q =? p); ring.
  Qed.
End Diag.
Section Memory.
  Variable K : numfield.
  Add Ring KrCap5 : (rth K).
  Variables (D n d : nat) (L : list (list nat)) (c : list nat -> K).
  Hypotheses (HN : NoDup L) (HL : List.length L <= D) (Hlen : forall w, In w L -> List.length w = n) (Hn : 0 < n) (Hd : 0 < d) (HD : 0 < D).
  Definition keep_site (t k p : nat) : K :=
    if (p <? List.length L) && (nth t (nth p L []) 0 =? k) then if t =? 0 then c (nth p L []) else s1 else s0.
  Definition keep_model : pmps K :=
    mkP K (mkT [n; d; D; D] (fun i => match i with [t; k; p; q] => diag_site K keep_site t k p q | _ => s0 end)) (tconst [2; D] s1) None None.
  Lemma keep_shapes : shapes_fixed K keep_model n d D.
  Proof. repeat split; assumption. Qed.
  Lemma keep_tail w : forall s p, 0 < s -> p < List.length L ->
    gprod K keep_site s w p = if weq (map (fun t => nth t (nth p L []) 0) (seq s (List.length w))) w then s1 else s0.
  Proof.
    induction w as [|k w IH]; intros s p Hs Hp; [reflexivity|]. cbn [gprod List.length seq map]. rewrite (IH (S s) p ltac:(lia) Hp).
    unfold keep_site. replace (p <? List.length L) with true by (symmetry; apply Nat.ltb_lt; exact Hp). cbn [andb].
    replace (s =? 0) with false by (symmetry; apply Nat.eqb_neq; lia).
    destruct (nth s (nth p L []) 0 =? k) eqn:E.
    - apply Nat.eqb_eq in E. rewrite E. destruct (weq _ w) as [E1|N1]; destruct (weq (k :: _) _) as [E2|N2]; try ring.
      + exfalso. apply N2. f_equal. exact E1.
      + exfalso. apply N1. injection E2. auto.
    - apply Nat.eqb_neq in E. destruct (weq (_ :: _) _) as [E2|N2]; [|ring]. exfalso. apply E. injection E2. auto.
  Qed.
  Lemma nth_seq_all (w : list nat) : map (fun t => nth t w 0) (seq 0 (List.length w)) = w.
  Proof. clear. induction w as [|x w IH]; [reflexivity|]. cbn [List.length seq map nth]. f_equal. rewrite <- seq_shift, map_map. exact IH. Qed.
  Lemma keep_word w p : List.length w = n -> gprod K keep_site 0 w p = if p <? List.length L then if weq (nth p L []) w then c w else s0 else s0.
  Proof.
    intros Hl. destruct w as [|k w]; [cbn in Hl; lia|]. cbn [gprod]. destruct (Nat.ltb_spec p (List.length L)) as [Hp|Hp].
    2:{ unfold keep_site. replace (p <? List.length L) with false by (symmetry; apply Nat.ltb_ge; exact Hp). cbn [andb]. ring. }
    rewrite (keep_tail w 1 p ltac:(lia) Hp). unfold keep_site. replace (p <? List.length L) with true by (symmetry; apply Nat.ltb_lt; exact Hp). cbn [andb Nat.eqb].
    assert (Er : nth p L [] = nth 0 (nth p L []) 0 :: map (fun t => nth t (nth p L []) 0) (seq 1 (List.length w))).
    { pose proof (nth_seq_all (nth p L [])) as E. rewrite (Hlen _ (nth_In L [] Hp)) in E. rewrite <- E at 1. rewrite <- Hl. reflexivity. }
    destruct (nth 0 (nth p L []) 0 =? k) eqn:E.
    - apply Nat.eqb_eq in E. rewrite E in Er. destruct (weq (map _ _) w) as [E1|N1].
      + rewrite E1 in Er. rewrite Er. destruct (weq (k :: w) (k :: w)) as [_|N]; [ring|contradiction].
      + destruct (weq (nth p L []) (k :: w)) as [E2|_]; [|ring]. exfalso. apply N1. rewrite Er in E2. injection E2. auto.
    - apply Nat.eqb_neq in E. destruct (weq (nth p L []) (k :: w)) as [E2|_]; [|ring]. exfalso. apply E. rewrite E2. reflexivity.
  Qed.
  Lemma keep_entry t k p q : letter_site (pm_core K keep_model) false None t k p q = diag_site K keep_site t k p q.
  Proof. unfold letter_site, entry, keep_model. cbn [pm_core get bias_at]. ring. Qed.
  Lemma pick_word w : bsum D (fun p => if p <? List.length L then if weq (nth p L []) w then c w else s0 else s0) = if in_dec weq w L then c w else s0 (s := K).
  Proof.
    destruct (in_dec weq w L) as [Hin|Hin].
    - destruct (In_nth L w [] Hin) as (p & Hp & E).
      refine (eq_trans _ (bsum_delta K D p (fun _ => c w) ltac:(lia))). apply bsum_ext. intros q Hq.
      destruct (Nat.ltb_spec q (List.length L)) as [Hq'|Hq'].
      + destruct (weq (nth q L []) w) as [E'|N']; destruct (q =? p) eqn:Eq; try reflexivity.
        * apply Nat.eqb_neq in Eq. exfalso. apply Eq. apply (NoDup_nth L []); [exact HN|exact Hq'|exact Hp|congruence].
        * apply Nat.eqb_eq in Eq. subst q. contradiction.
      + replace (q =? p) with false by (symmetry; apply Nat.eqb_neq; lia). reflexivity.
    - apply (bsum_zero K). intros p Hp. destruct (Nat.ltb_spec p (List.length L)) as [Hp'|Hp']; [|reflexivity].
      destruct (weq (nth p L []) w) as [E'|N']; [|reflexivity]. exfalso. apply Hin. rewrite <- E'. apply nth_In, Hp'.
  Qed.
  Lemma keep_amp w : List.length w = n ->
    amplitude D (edge_at (pm_edge K keep_model) 0) (edge_at (pm_edge K keep_model) 1) (letter_site (pm_core K keep_model) false None) w = if in_dec weq w L then c w else s0.
  Proof.
    intros Hl. transitivity (amplitude D (fun _ => s1 (s := K)) (fun _ => s1) (diag_site K keep_site) w).
    { apply (amplitude_ext K). intros t k p q _ _ _ _. apply keep_entry. }
    rewrite diag_amplitude, <- pick_word. apply bsum_ext. intros p Hp. rewrite (keep_word w p Hl). ring.
  Qed.
  (** *** the same with one core for all sites: the bond also counts the position *)
  Definition walk_next (P : nat) : nat := ((P / D + 1) mod n) * D + P mod D.
  Definition walk_site (k : nat) : mat K := fun P Q => if Q =? walk_next P then keep_site (P / D) k (P mod D) else s0.
  Definition walk_model : pmps K :=
    mkP K (mkT [d; n * D; n * D] (fun i => match i with [k; P; Q] => walk_site k P Q | _ => s0 end))
      (mkT [2; n * D] (fun i => if nth 1 i 0 <? D then s1 else s0)) None None.
  Lemma walk_shapes : shapes_unif K walk_model d (n * D).
  Proof. repeat split; try assumption. apply Nat.mul_pos_pos; assumption. Qed.
  Lemma walk_chain w : forall t s r Q, s + List.length w <= n -> r < D -> Q < n * D ->
    chain (sites (n * D) (fun _ => walk_site) t w) ((s mod n) * D + r) Q = if Q =? ((s + List.length w) mod n) * D + r then gprod K keep_site s w r else s0.
  Proof.
    induction w as [|k w IH]; intros t s r Q Hl Hr HQ; cbn [sites gprod List.length].
    - cbn [chain]. unfold delta. rewrite Nat.add_0_r, Nat.eqb_sym. reflexivity.
    - cbn [List.length] in Hl. rewrite (chain_cons K). unfold mmul. rewrite (Nat.mod_small s n) by lia.
      assert (Ed : (s * D + r) / D = s) by (rewrite Nat.add_comm, Nat.div_add by lia; rewrite Nat.div_small by exact Hr; reflexivity).
      assert (Em : (s * D + r) mod D = r) by (rewrite Nat.add_comm, Nat.mod_add by lia; apply Nat.mod_small, Hr).
      assert (En : walk_next (s * D + r) = (S s mod n) * D + r) by (unfold walk_next; rewrite Ed, Em, Nat.add_1_r; reflexivity).
      assert (Hb : (S s mod n) * D + r < n * D).
      { assert (S s mod n < n) by (apply Nat.mod_upper_bound; lia). nia. }
      rewrite (bsum_ext (n * D) _ (fun R0 => if R0 =? (S s mod n) * D + r then smul (keep_site s k r) (chain (sites (n * D) (fun _ => walk_site) (S t) w) R0 Q) else s0)).
      + rewrite (bsum_delta K (n * D) _ (fun R0 => smul (keep_site s k r) (chain (sites (n * D) (fun _ => walk_site) (S t) w) R0 Q)) Hb).
        rewrite (IH (S t) (S s) r Q ltac:(lia) Hr HQ). replace (s + S (List.length w)) with (S s + List.length w) by lia. destruct (Q =? _); ring.
      + intros R0 HR. unfold walk_site at 1. rewrite Ed, Em, En. destruct (R0 =? _); ring.
  Qed.
  Lemma bsum_trunc a b (f : nat -> K) : a <= b -> bsum b (fun p => if p <? a then f p else s0) = bsum a f.
  Proof.
    clear. intros H. replace b with (a + (b - a)) by lia. rewrite (bsum_split K).
    rewrite (bsum_ext a _ f) by (intros p Hp; replace (p <? a) with true by (symmetry; apply Nat.ltb_lt; exact Hp); reflexivity).
    rewrite (bsum_zero K (b - a)); [ring|]. intros p Hp. replace (a + p <? a) with false by (symmetry; apply Nat.ltb_ge; lia). reflexivity.
  Qed.
  Lemma walk_amp w : List.length w = n ->
    amplitude (n * D) (edge_at (pm_edge K walk_model) 0) (edge_at (pm_edge K walk_model) 1) (letter_site (pm_core K walk_model) true None) w = if in_dec weq w L then c w else s0.
  Proof.
    intros Hl. assert (HnD : D <= n * D) by nia.
    transitivity (amplitude (n * D) (fun p => if p <? D then s1 (s := K) else s0) (fun p => if p <? D then s1 else s0) (fun _ => walk_site) w).
    { apply (amplitude_ext K). intros t k p q _ _ _ _. unfold letter_site, entry, walk_model. cbn [pm_core get bias_at]. ring. }
    unfold amplitude, sandwich.
    rewrite (bsum_ext (n * D) _ (fun p => if p <? D then gprod K keep_site 0 w p else s0)).
    - rewrite bsum_trunc by exact HnD. rewrite <- pick_word. apply bsum_ext. intros p Hp. apply (keep_word w p Hl).
    - intros p Hp. destruct (Nat.ltb_spec p D) as [HpD|HpD].
      + rewrite (bsum_ext (n * D) _ (fun q => if q =? p then gprod K keep_site 0 w p else s0)).
        * exact (bsum_delta K (n * D) p (fun _ => gprod K keep_site 0 w p) Hp).
        * intros q Hq. pose proof (walk_chain w 0 0 p q ltac:(lia) HpD Hq) as E. rewrite Nat.mod_0_l in E by lia. cbn [Nat.mul Nat.add] in E. rewrite Hl, Nat.mod_same in E by lia. cbn [Nat.mul Nat.add] in E.
          rewrite E. destruct (q =? p) eqn:Eq; [|ring]. apply Nat.eqb_eq in Eq. subst q. replace (p <? D) with true by (symmetry; apply Nat.ltb_lt; exact HpD). ring.
      + apply (bsum_zero K). intros q Hq. ring.
  Qed.
End Memory.
(** a model whose amplitudes are square roots of probabilities *)
Lemma capacity_from (K : numfield) (uniform : bool) (m : pmps K) (n d D : nat) (p : list nat -> R) :
  shapes_of K uniform m n d D -> pm_emb K m = None -> pm_bias K m = None -> 0 < n ->
  (forall w, In w (words d n) -> (0 <= p w)%R) -> lsum (K := R_ops) (words d n) p = 1%R ->
  (forall w, In w (words d n) -> abs2 (amplitude D (edge_at (pm_edge K m) 0) (edge_at (pm_edge K m) 1) (letter_site (pm_core K m) uniform (pm_bias K m)) w) = p w) ->
  forall (ix : tensor Z) (batch : nat) (slim par : bool), wf_input (K := K) (TLong ix) batch n d ->
    (0 < batch -> (forall b, b < batch -> (0 < p (row_letters ix n b))%R) ->
       exists T, snd (fwd K uniform m (TLong ix) slim par) = Ok T /\ shp T = [batch] /\
         forall b, b < batch -> get T [b] = XFin (ln (p (row_letters ix n b)))) /\
    match snd (fwd K uniform m (TLong ix) slim par) with
    | Ok T => shp T = [batch] /\ forall b, b < batch -> prob_of (get T [b]) = p (row_letters ix n b)
    | Err e => e = AssertionError /\ exists b, b < batch /\ p (row_letters ix n b) = 0%R
    end.
Proof.
  intros Hsh He Hbi Hn Hp Hs Hamp ix batch slim par Hx.
  assert (HZ : Zfun K uniform m n d D = 1%R).
  { unfold Zfun, partition_fn. rewrite <- Hs. apply rsum_ext. exact Hamp. }
  assert (Hpsi : forall b, b < batch -> abs2 (psi K uniform m n d D (TLong ix) b) = p (row_letters ix n b)).
  { intros b Hb. apply Hamp, (row_in_words K ix batch n d b Hx Hb). }
  assert (H0 : forall b, b < batch -> psi K uniform m n d D (TLong ix) b = s0 -> p (row_letters ix n b) = 0%R).
  { intros b Hb E. rewrite <- (Hpsi b Hb), E. apply abs2_s0. }
  pose proof (C11_zero_amplitude_partial K uniform m (TLong ix) slim par batch n d D Hsh He Hx Hn (fun _ => Hbi)) as H.
  assert (G : forall T, snd (fwd K uniform m (TLong ix) slim par) = Ok T -> forall b, b < batch -> (0 < p (row_letters ix n b))%R -> get T [b] = XFin (ln (p (row_letters ix n b)))).
  { intros T E b Hb Hpos. rewrite E in H. destruct H as [_ H]. destruct (H b Hb) as [_ Hnz].
    rewrite Hnz by (intros C; rewrite (H0 b Hb C) in Hpos; lra). rewrite HZ, (Hpsi b Hb). f_equal. f_equal. unfold Rdiv. rewrite Rinv_1. ring. }
  destruct (snd (fwd K uniform m (TLong ix) slim par)) as [T|e] eqn:ET; split.
  - intros Hb0 Hpos. exists T. split; [reflexivity|]. split; [exact (proj1 H)|]. intros b Hb. apply (G T eq_refl b Hb (Hpos b Hb)).
  - destruct H as [HT H]. split; [exact HT|]. intros b Hb.
    destruct (Hp _ (row_in_words K ix batch n d b Hx Hb)) as [Hpos|E].
    + rewrite (G T eq_refl b Hb Hpos). cbn [prob_of]. apply exp_ln, Hpos.
    + rewrite (proj1 (H b Hb)); [rewrite <- E; reflexivity|]. apply (abs2_zero K). rewrite (Hpsi b Hb). symmetry. exact E.
  - intros Hb0 Hpos. exfalso. destruct H as [_ [HZ0|(b & Hb & Hz)]]; [rewrite HZ in HZ0; lra|]. specialize (Hpos b Hb). rewrite (H0 b Hb Hz) in Hpos. lra.
  - destruct H as [He' [HZ0|(b & Hb & Hz)]]; [rewrite HZ in HZ0; lra|]. split; [exact He'|]. exists b. split; [exact Hb|apply (H0 b Hb Hz)].
Qed.
(** *** every distribution over words with at most D words of positive probability is that of a ProbMPS of bond dimension D and
    that of a ProbUnifMPS of bond dimension n D: on any batch of such words forward returns the logarithms of their
    probabilities, and on any batch at all a call that returns gives the probability of every row (0 as -inf); it raises only
    if some row has probability 0 *)
Theorem C111_capacity (K : numfield) (uniform : bool) (n d D : nat) (p : list nat -> R) (L : list (list nat)) :
  0 < n -> 0 < d -> 0 < D -> (forall w, In w (words d n) -> (0 <= p w)%R) -> lsum (K := R_ops) (words d n) p = 1%R ->
  NoDup L -> List.length L <= D -> (forall w, In w (words d n) -> (0 < p w)%R -> In w L) ->
  exists m : pmps K, shapes_of K uniform m n d (if uniform then n * D else D) /\ pm_emb K m = None /\ pm_bias K m = None /\
    forall (ix : tensor Z) (batch : nat) (slim par : bool), wf_input (K := K) (TLong ix) batch n d ->
      (0 < batch -> (forall b, b < batch -> (0 < p (row_letters ix n b))%R) ->
         exists T, snd (fwd K uniform m (TLong ix) slim par) = Ok T /\ shp T = [batch] /\
           forall b, b < batch -> get T [b] = XFin (ln (p (row_letters ix n b)))) /\
      match snd (fwd K uniform m (TLong ix) slim par) with
      | Ok T => shp T = [batch] /\ forall b, b < batch -> prob_of (get T [b]) = p (row_letters ix n b)
      | Err e => e = AssertionError /\ exists b, b < batch /\ p (row_letters ix n b) = 0%R
      end.
Proof.
  intros Hn Hd HD Hp Hs HN HL Hsup.
  set (L' := filter (fun w => if in_dec weq w (words d n) then true else false) L).
  assert (HN' : NoDup L') by (apply NoDup_filter; exact HN).
  assert (HL' : List.length L' <= D).
  { apply Nat.le_trans with (List.length L); [|exact HL]. unfold L'. clear. induction L as [|w L IH]; [apply Nat.le_refl|]. cbn [filter].
    destruct (in_dec weq w (words d n)); cbn [List.length]; lia. }
  assert (Hin' : forall w, In w L' -> In w (words d n)).
  { intros w Hw. apply filter_In in Hw as [_ Hw]. destruct (in_dec weq w (words d n)); [assumption|discriminate]. }
  set (c := fun w => nofR K (sqrt (p w))).
  assert (Hlen : forall w, In w L' -> List.length w = n) by (intros w Hw; apply (words_length _ _ _ (Hin' w Hw))).
  assert (Hval : forall w, In w (words d n) -> abs2 (if in_dec weq w L' then c w else s0) = p w).
  { intros w Hw. destruct (in_dec weq w L') as [Hi|Hi].
    - unfold c, abs2. rewrite nabs_of, Rabs_pos_eq by apply sqrt_pos. apply sqrt_sqrt. apply Hp, Hw.
    - rewrite abs2_s0. destruct (Hp w Hw) as [Hpos|E]; [|exact E]. exfalso. apply Hi. apply filter_In. split; [apply Hsup; assumption|]. destruct (in_dec weq w (words d n)); [reflexivity|contradiction]. }
  destruct uniform.
  - exists (walk_model K D n d L' c).
    assert (Hsh : shapes_of K true (walk_model K D n d L' c) n d (n * D)) by (apply walk_shapes; assumption).
    split; [exact Hsh|]. split; [reflexivity|]. split; [reflexivity|].
    apply (capacity_from K true _ n d (n * D) p Hsh eq_refl eq_refl Hn Hp Hs).
    intros w Hw. rewrite <- (Hval w Hw). f_equal. apply walk_amp; try assumption. apply (words_length _ _ _ Hw).
  - exists (keep_model K D n d L' c).
    assert (Hsh : shapes_of K false (keep_model K D n d L' c) n d D) by (apply keep_shapes; assumption).
    split; [exact Hsh|]. split; [reflexivity|]. split; [reflexivity|].
    apply (capacity_from K false _ n d D p Hsh eq_refl eq_refl Hn Hp Hs).
    intros w Hw. rewrite <- (Hval w Hw). f_equal. apply keep_amp; try assumption. apply (words_length _ _ _ Hw).
Qed.
(** *** concrete cases: probabilities 1/3 and 2/3 on the words 01 and 10, bond dimension 2 *)
Definition two_words (w : list nat) : R := if weq w [0; 1] then (1 / 3)%R else if weq w [1; 0] then (2 / 3)%R else 0%R.
Example C111_met : exists m : pmps R_num, shapes_fixed R_num m 2 2 2 /\
  forall slim par, exists T, snd (forward_fixed R_num m (TLong (word_batch [1; 0])) slim par) = Ok T /\ get T [0] = XFin (ln (2 / 3)).
Proof.
  destruct (C111_capacity R_num false 2 2 2 two_words [[0; 1]; [1; 0]]) as (m & Hsh & _ & _ & H); try lia.
  - intros w _. unfold two_words. destruct (weq w [0; 1]); [lra|]. destruct (weq w [1; 0]); lra.
  - unfold two_words, lsum. cbn. field.
  - repeat constructor; cbn; intuition discriminate.
  - cbn. lia.
  - intros w _. unfold two_words. destruct (weq w [0; 1]) as [->|_]; [left; reflexivity|]. destruct (weq w [1; 0]) as [->|_]; [right; left; reflexivity|lra].
  - exists m. split; [exact Hsh|]. intros slim par.
    assert (Hx : wf_input (K := R_num) (TLong (word_batch [1; 0])) 1 2 2) by (apply word_batch_wf; [reflexivity|intros k [<-|[<-|[]]]; lia]).
    destruct (H (word_batch [1; 0]) 1 slim par Hx) as [H1 _]. destruct H1 as (T & E & _ & G); [lia| |].
    + intros b Hb. replace b with 0 by lia. change (0 < two_words [1%nat; 0%nat])%R. unfold two_words. cbn -[Rdiv]. lra.
    + exists T. split; [exact E|]. rewrite (G 0 ltac:(lia)). reflexivity.
Qed.
(** a uniform distribution: 4 words, bond dimension 1; two matching pairs are positive, so a third word is *)
Example C111_rank_met : shapes_of R_num false (mkP R_num (tconst [2; 2; 1; 1] 1%R) (tconst [2; 1] 1%R) None None) 2 2 1 /\
  forall i, i < 2 -> exists T, snd (fwd R_num false (mkP R_num (tconst [2; 2; 1; 1] 1%R) (tconst [2; 1] 1%R) None None) (TLong (word_batch ([i] ++ [i]))) false true) = Ok T /\ (0 < prob_of (get T [0%nat]))%R.
Proof.
  assert (Hsh : shapes_of R_num false (mkP R_num (tconst [2; 2; 1; 1] 1%R) (tconst [2; 1] 1%R) None None) 2 2 1) by (repeat split; cbn; lia).
  split; [exact Hsh|]. intros i Hi.
  apply (word_positive R_num false _ false true 2 2 1 ([i] ++ [i]) Hsh eq_refl ltac:(lia) ltac:(discriminate) eq_refl).
  - intros k [<-|[<-|[]]]; exact Hi.
  - assert (E : psi R_num false (mkP R_num (tconst [2; 2; 1; 1] 1%R) (tconst [2; 1] 1%R) None None) 2 2 1 (TLong (word_batch ([i] ++ [i]))) 0 = 1%R).
    { unfold psi, row_amp, row_letters, amplitude, sandwich, chain, sites, mmul, delta, letter_site, entry, edge_at, bias_at, word_batch. cbn. ring. }
    rewrite E. exact R1_neq_R0.
Qed.
Print Assumptions C111_rank.
Print Assumptions C111_tight.
Print Assumptions C111_capacity.
