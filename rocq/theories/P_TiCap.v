(** * P_TiCap: C113, which functions a trained TI_MPS can compute. *)
From Coq Require Import Ring_theory Ring Reals Lra.
From Verif Require Import Base Scalars Tensor Spec LinAlg Contractables Utils TorchMps TmSpec TmProofs TmFinal P_Prob P_Mps P_Mps2 P_Mps3 P_TiMps P_Gibbs P_Capacity P_MpsCap.
Open Scope nat_scope.

Section TiCap.
  Variable K : cring.
  Add Ring KrTc : (rth K).
  Variables (D E n : nat) (L : list (list nat)).
  Hypotheses (HN : NoDup L) (HL : List.length L <= E) (Hlen : forall w, In w L -> List.length w = n) (Hn : 0 < n) (HE : 0 < E) (HD : n * E <= D).
  (** a bond index P < n E holds a position P / E and the number P mod E of a remembered word *)
  Definition keeps (s k p : nat) : K := if nth s (nth p L []) 0 =? k then s1 else s0.
  Definition turn (P : nat) : nat := ((P / E + 1) mod n) * E + P mod E.
  Definition walk (k : nat) : mat K := fun P Q => if (P <? n * E) && (Q =? turn P) then keeps (P / E) k (P mod E) else s0.
  Fixpoint kprod (s : nat) (w : list nat) (p : nat) : K := match w with [] => s1 | k :: w => smul (keeps s k p) (kprod (Datatypes.S s) w p) end.
  Lemma walk_run w : forall s r Q, s + List.length w <= n -> r < E ->
    chain (map (fun k => (D, walk k)) w) ((s mod n) * E + r) Q = if Q =? ((s + List.length w) mod n) * E + r then kprod s w r else s0.
  Proof.
    induction w as [|k w IH]; intros s r Q Hl Hr; cbn [map kprod List.length].
    - cbn [chain]. unfold delta. rewrite Nat.add_0_r, Nat.eqb_sym. reflexivity.
    - cbn [List.length] in Hl. rewrite (chain_cons K). unfold mmul. rewrite (Nat.mod_small s n) by lia.
      assert (Ed : (s * E + r) / E = s) by (rewrite Nat.add_comm, Nat.div_add by lia; rewrite Nat.div_small by exact Hr; reflexivity).
      assert (Em : (s * E + r) mod E = r) by (rewrite Nat.add_comm, Nat.mod_add by lia; apply Nat.mod_small, Hr).
      assert (En : turn (s * E + r) = (Datatypes.S s mod n) * E + r) by (unfold turn; rewrite Ed, Em, Nat.add_1_r; reflexivity).
      assert (Hb : (Datatypes.S s mod n) * E + r < D).
      { assert (Datatypes.S s mod n < n) by (apply Nat.mod_upper_bound; lia). nia. }
      assert (Hp : s * E + r < n * E) by nia.
      rewrite (bsum_ext D _ (fun R0 => if R0 =? (Datatypes.S s mod n) * E + r then smul (keeps s k r) (chain (map (fun k => (D, walk k)) w) R0 Q) else s0)).
      + rewrite (bsum_delta K D _ (fun R0 => smul (keeps s k r) (chain (map (fun k => (D, walk k)) w) R0 Q)) Hb).
        rewrite (IH (Datatypes.S s) r Q ltac:(lia) Hr). replace (s + Datatypes.S (List.length w)) with (Datatypes.S s + List.length w) by lia. destruct (Q =? _); ring.
      + intros R0 HR. unfold walk at 1. rewrite Ed, Em, En. replace (s * E + r <? n * E) with true by (symmetry; apply Nat.ltb_lt; exact Hp). cbn [andb]. destruct (R0 =? _); ring.
  Qed.
  Lemma skip_cons (q : list nat) : forall s m, List.length (skipn s q) = Datatypes.S m -> skipn s q = nth s q 0 :: skipn (Datatypes.S s) q.
  Proof. clear. induction q as [|z q IH]; intros s m Hs; [destruct s; discriminate Hs|]. destruct s as [|s]; [reflexivity|]. exact (IH s m Hs). Qed.
  Lemma kprod_word w : forall s p, List.length (skipn s (nth p L [])) = List.length w -> kprod s w p = if weq (skipn s (nth p L [])) w then s1 else s0.
  Proof.
    induction w as [|k w IH]; intros s p Hs; cbn [kprod].
    - destruct (skipn s (nth p L [])); [|cbn in Hs; lia]. destruct (weq [] []); [reflexivity|contradiction].
    - set (q := nth p L []) in *. pose proof (skip_cons q s _ Hs) as Eq.
      rewrite Eq in Hs |- *. cbn [List.length] in Hs. rewrite (IH (Datatypes.S s) p) by (fold q; lia). fold q. unfold keeps. fold q.
      destruct (nth s q 0 =? k) eqn:Ek.
      + apply Nat.eqb_eq in Ek. rewrite Ek. destruct (weq (skipn (Datatypes.S s) q) w) as [E1|N1]; destruct (weq (k :: skipn (Datatypes.S s) q) (k :: w)) as [E2|N2]; try ring.
        * exfalso. apply N2. f_equal. exact E1.
        * exfalso. apply N1. injection E2. auto.
      + apply Nat.eqb_neq in Ek. destruct (weq (nth s q 0 :: skipn (Datatypes.S s) q) (k :: w)) as [E2|N2]; [|ring]. exfalso. apply Ek. injection E2. auto.
  Qed.
  (** the sandwich of a word of length n *)
  Lemma walk_value (w : list nat) (ans : list nat -> K) : List.length w = n ->
    sandwich D D (fun P => if P <? List.length L then s1 else s0) (chain (map (fun k => (D, walk k)) w)) (fun P => if P <? List.length L then ans (nth P L []) else s0)
    = if in_dec weq w L then ans w else s0.
  Proof.
    intros Hl. assert (HED : E <= D) by nia. unfold sandwich.
    rewrite (bsum_ext D _ (fun P => if P <? List.length L then if weq (nth P L []) w then ans w else s0 else s0)).
    - destruct (in_dec weq w L) as [Hin|Hin].
      + destruct (In_nth L w [] Hin) as (p & Hp & Ew).
        refine (eq_trans _ (bsum_delta K D p (fun _ => ans w) ltac:(lia))). apply bsum_ext. intros q Hq.
        destruct (Nat.ltb_spec q (List.length L)) as [Hq'|Hq'].
        * destruct (weq (nth q L []) w) as [E'|N']; destruct (q =? p) eqn:Eq; try reflexivity.
          -- apply Nat.eqb_neq in Eq. exfalso. apply Eq. apply (NoDup_nth L []); [exact HN|exact Hq'|exact Hp|congruence].
          -- apply Nat.eqb_eq in Eq. subst q. contradiction.
        * replace (q =? p) with false by (symmetry; apply Nat.eqb_neq; lia). reflexivity.
      + apply (bsum_zero K). intros p Hp. destruct (Nat.ltb_spec p (List.length L)) as [Hp'|Hp']; [|reflexivity].
        destruct (weq (nth p L []) w) as [E'|N']; [|reflexivity]. exfalso. apply Hin. rewrite <- E'. apply nth_In, Hp'.
    - intros P HP. destruct (Nat.ltb_spec P (List.length L)) as [Hp|Hp].
      2:{ apply (bsum_zero K). intros Q HQ. ring. }
      rewrite (bsum_ext D _ (fun Q => if Q =? P then smul (kprod 0 w P) (ans (nth P L [])) else s0)).
      + rewrite (bsum_delta K D P (fun _ => smul (kprod 0 w P) (ans (nth P L []))) HP).
        assert (Hw : List.length (skipn 0 (nth P L [])) = List.length w) by (cbn [skipn]; rewrite Hl; apply Hlen, nth_In, Hp).
        rewrite (kprod_word w 0 P Hw). cbn [skipn]. destruct (weq (nth P L []) w) as [Ew|_]; [rewrite Ew|]; ring.
      + intros Q HQ. pose proof (walk_run w 0 P Q ltac:(lia) ltac:(lia)) as Ew. rewrite Nat.mod_0_l in Ew by lia. cbn [Nat.mul Nat.add] in Ew.
        rewrite Hl, Nat.mod_same in Ew by lia. cbn [Nat.mul Nat.add] in Ew. rewrite Ew. destruct (Q =? P) eqn:Eq; [|ring].
        apply Nat.eqb_eq in Eq. subst Q. replace (P <? List.length L) with true by (symmetry; apply Nat.ltb_lt; exact Hp). ring.
  Qed.
End TiCap.

Section TiMem.
  Variable K : cring.
  Add Ring KrTc2 : (rth K).
  (** *** C113: with trainable ends and a bond dimension of at least sequence length times number of words, some trained state answers
      any given values on any list of distinct one-hot words of one length, and zeros on all other words of that length *)
  Theorem C113_memorise (O D F n : nat) (par : bool) (std : K) (ub fb : bool) (over : nat -> K -> K) (rnd : nat -> list nat -> K) (m0 : ti_mps K)
      (L : list (list nat)) (answer : list nat -> nat -> K) :
    ti_init K O D F par false std ub fb over rnd = Ok m0 -> 0 < n -> NoDup L -> 0 < List.length L -> n * List.length L <= D -> (forall w, In w L -> List.length w = n) ->
    exists m, ti_trained m0 m /\
      forall (x : tensor K) (B : nat) (g : option nat) (word : nat -> list nat), shp x = [B; n; F] ->
        (forall b, b < B -> List.length (word b) = n /\ (forall k, In k (word b) -> k < F) /\
                            forall s i, s < n -> i < F -> get x [b; s; i] = one_hot (word b) s i) ->
        exists out, ti_forward K m (TTensor x) g = (Ok out, Some B) /\ shp out = [B; O] /\
          forall b o, b < B -> o < O -> get out [b; o] = if in_dec weq (word b) L then answer (word b) o else s0.
  Proof.
    intros Hi Hn HND HL0 HD Hlen.
    assert (Ht0 : ti_trained m0 m0).
    { destruct (C38_constructor K O D F par false std ub fb over rnd ltac:(discriminate)) as (m1 & E1 & Ht & _). rewrite Hi in E1. injection E1 as ->. exact Ht. }
    pose proof (ti_init_built K _ _ _ _ _ _ _ _ _ _ m0 m0 Hi Ht0) as Hb0. destruct Hb0 as [Eo ED EF Ep Eub Efb Hcore Hvec Hmat Hbias].
    set (bias := ti_bias_mat m0). set (E := List.length L).
    set (m := mkTi K (t_output m0) (t_bond m0) (t_feature m0) (t_parallel m0) (t_use_bias m0) (t_fixed_bias m0)
                (mkT [D; D; F] (fun i => match i with [l; r; k] => sadd (walk K E n L k l r) (ropp (bias l r)) | _ => s0 end))
                (mkT [D] (fun i => match i with [P] => if P <? List.length L then s1 else s0 | _ => s0 end))
                (mkT [D; O] (fun i => match i with [P; o] => if P <? List.length L then answer (nth P L []) o else s0 | _ => s0 end))
                (t_bias m0) (t_fmap m0)).
    assert (Ht : ti_trained m0 m).
    { unfold ti_trained, same_shape. cbn. rewrite Hcore, Hvec, Hmat. do 3 (split; [reflexivity|]). split; [|reflexivity].
      destruct (t_bias m0); [split; [reflexivity|reflexivity]|exact Logic.I]. }
    exists m. split; [exact Ht|]. intros x B g word Hx Hw.
    destruct (C38_ti_forward K O D F par false std ub fb over rnd m0 m x B n g Hi Ht Hx ltac:(lia)) as (out & Ef & Hs & G).
    exists out. split; [exact Ef|]. split; [exact Hs|]. intros b o Hb Ho. rewrite (G b o Hb Ho).
    destruct (Hw b Hb) as (Hwl & Hwk & Hwx). set (w := word b) in *.
    refine (eq_trans _ (walk_value K D E n L HND (Nat.le_refl _) Hlen Hn HL0 HD w (fun u => answer u o) Hwl)).
    unfold ti_value. cbn [t_bond t_feature t_vec t_mat t_core m get]. rewrite ED, EF. unfold sandwich.
    assert (Ew : map (fun k => (D, walk K E n L k)) w = map (fun s => (D, walk K E n L (nth s w 0))) (seq 0 n)).
    { rewrite <- Hwl. rewrite <- (nth_seq_all w) at 1. rewrite map_map. reflexivity. }
    rewrite Ew. apply bsum_ext. intros i Hi'. apply bsum_ext. intros j Hj. f_equal. f_equal.
    apply (same_fac_chain K).
    assert (Gm : forall js, (forall s, In s js -> s < n) ->
      same_fac K (map (fun s => (D, site_matrix F (fun l r i0 => get (t_core m) [l; r; i0]) (ti_bias_mat m) (fun i0 => get x [b; s; i0]))) js) (map (fun s => (D, walk K E n L (nth s w 0))) js)).
    { induction js as [|s js IH]; intros Hjs; [constructor|]. constructor; [|apply IH; intros; apply Hjs; right; assumption]. split; [reflexivity|]. intros l r. cbn [snd].
      assert (Hs' : s < n) by (apply Hjs; left; reflexivity). assert (Hk : nth s w 0 < F) by (apply Hwk, nth_In; lia).
      unfold site_matrix. rewrite (bsum_ext F _ (fun i0 => if i0 =? nth s w 0 then sadd (walk K E n L i0 l r) (ropp (bias l r)) else s0)).
      - rewrite (bsum_delta K F (nth s w 0) (fun i0 => sadd (walk K E n L i0 l r) (ropp (bias l r))) Hk). change (ti_bias_mat m l r) with (bias l r). ring.
      - intros i0 Hi0. rewrite (Hwx s i0 Hs' Hi0). unfold one_hot. cbn [t_core m get]. destruct (i0 =? nth s w 0); ring. }
    apply Gm. intros s Hs'. apply in_seq in Hs'. lia.
  Qed.
End TiMem.

Section TiRank.
  Variable K : numfield.
  Add Ring KrTc3 : (rth K).
  (** *** and no state carries more than bond_dim alternatives across a cut *)
  Theorem C113_rank (O D F : nat) (par fe : bool) (std : K) (ub fb : bool) (over : nat -> K -> K) (rnd : nat -> list nat -> K) (m0 m : ti_mps K)
      (g : option nat) (n k o : nat) (u v : nat -> nat -> vec K) :
    ti_init K O D F par fe std ub fb over rnd = Ok m0 -> ti_trained m0 m -> 0 < n -> k <= n -> o < O ->
    (forall i, i < Datatypes.S D -> exists out g', ti_forward K m (TTensor (joined n F k (u i) (v i))) g = (Ok out, g') /\ get out [0; o] <> s0) ->
    exists i j, i < Datatypes.S D /\ j < Datatypes.S D /\ i <> j /\
      exists out g', ti_forward K m (TTensor (joined n F k (u i) (v j))) g = (Ok out, g') /\ get out [0; o] <> s0.
  Proof.
    intros Hi Ht Hn Hk Ho Hd.
    pose proof (ti_init_built K _ _ _ _ _ _ _ _ _ _ m0 m Hi Ht) as [_ ED EF _ _ _ _ _ _ _].
    set (st := fun (x : nat -> vec K) (s : nat) => (D, site_matrix F (fun l r i => get (t_core m) [l; r; i]) (ti_bias_mat m) (x s))).
    set (L := fun i r => bsum D (fun p => smul (get (t_vec m) [p]) (chain (map (st (u i)) (seq 0 k)) p r))).
    set (R0 := fun r j => bsum D (fun q => smul (chain (map (st (v j)) (seq k (n - k))) r q) (get (t_mat m) [q; o]))).
    assert (E : forall i j, exists out, ti_forward K m (TTensor (joined n F k (u i) (v j))) g = (Ok out, Some 1) /\ get out [0; o] = bsum D (fun r => smul (L i r) (R0 r j))).
    { intros i j. destruct (C38_ti_forward K O D F par fe std ub fb over rnd m0 m (joined n F k (u i) (v j)) 1 n g Hi Ht eq_refl ltac:(lia)) as (out & Ef & _ & G).
      exists out. split; [exact Ef|]. rewrite (G 0 o ltac:(lia) Ho). unfold ti_value. rewrite ED, EF.
      assert (Es : map (fun s => (D, site_matrix F (fun l r i0 => get (t_core m) [l; r; i0]) (ti_bias_mat m) (fun i0 => get (joined n F k (u i) (v j)) [0; s; i0]))) (seq 0 n)
                   = map (st (u i)) (seq 0 k) ++ map (st (v j)) (seq k (n - k))).
      { assert (Es : seq 0 n = seq 0 k ++ seq k (n - k)).
        { pose proof (seq_app k (n - k) 0) as Es. replace (k + (n - k)) with n in Es by lia. exact Es. }
        rewrite Es, map_app. f_equal; apply map_ext_in; intros s Hs; apply in_seq in Hs; unfold st, joined, site_matrix; cbn [get].
        - replace (s <? k) with true by (symmetry; apply Nat.ltb_lt; lia). reflexivity.
        - replace (s <? k) with false by (symmetry; apply Nat.ltb_ge; lia). reflexivity. }
      rewrite Es. unfold sandwich, L, R0.
      assert (Hc : cols K D (map (st (u i)) (seq 0 k)) = D).
      { unfold cols. generalize (seq 0 k). induction l as [|s l IH]; [reflexivity|]. destruct l as [|s' l]; [reflexivity|]. exact IH. }
      transitivity (bsum D (fun p => bsum D (fun q => bsum D (fun r => smul (smul (get (t_vec m) [p]) (chain (map (st (u i)) (seq 0 k)) p r)) (smul (chain (map (st (v j)) (seq k (n - k))) r q) (get (t_mat m) [q; o])))))).
      { apply bsum_ext. intros p Hp. apply bsum_ext. intros q Hq. rewrite (chain_app K D _ _ p q Hp), Hc. unfold mmul.
        rewrite <- (bsum_mul_r K), <- (bsum_mul_l K). apply bsum_ext. intros; ring. }
      rewrite (LogNorm.bsum_swap3 K). apply bsum_ext. intros r Hr. rewrite <- (bsum_mul_r K). apply bsum_ext. intros p Hp. apply (bsum_mul_l K). }
    destruct (no_wide_diagonal K D L R0) as (i & j & Hi' & Hj & Hne & H).
    - intros i Hi'. destruct (Hd i Hi') as (out & g' & Eo & Hnz). destruct (E i i) as (out' & Eo' & G). rewrite Eo in Eo'. injection Eo' as -> _. rewrite G in Hnz. exact Hnz.
    - destruct (E i j) as (out & Eo & G). exists i, j. split; [exact Hi'|]. split; [exact Hj|]. split; [exact Hne|]. exists out, (Some 1). split; [exact Eo|]. rewrite G. exact H.
  Qed.
End TiRank.
(** ** the hypotheses are met: two words of length 2, bond dimension 4, a fixed identity bias *)
Definition zero_rnd (k : nat) (i : list nat) : Z := 0%Z.
Example C113_met : exists m0, ti_init Z_cring 1 4 2 false false (1%Z : Z_cring) true true (fun _ z => z) zero_rnd = Ok m0 /\
  exists m, ti_trained m0 m /\
    forall g, exists out, ti_forward Z_cring m (TTensor (mkT [2; 2; 2] (fun i => match i with [b; s; f] => one_hot (nth b [[0; 1]; [1; 1]] []) s f | _ => s0 end))) g = (Ok out, Some 2) /\
      get out [0; 0] = 7%Z /\ get out [1; 0] = 0%Z.
Proof.
  destruct (C38_constructor Z_cring 1 4 2 false false (1%Z : Z_cring) true true (fun _ z => z) zero_rnd ltac:(discriminate)) as (m0 & Em & _).
  exists m0. split; [exact Em|].
  destruct (C113_memorise Z_cring 1 4 2 2 false (1%Z : Z_cring) true true (fun _ z => z) zero_rnd m0 [[0; 1]; [1; 0]] (fun _ _ => 7%Z) Em ltac:(lia)) as (m & Ht & H).
  - repeat constructor; cbn; intuition discriminate.
  - cbn. lia.
  - cbn. lia.
  - intros w [<-|[<-|[]]]; reflexivity.
  - exists m. split; [exact Ht|]. intros g.
    destruct (H (mkT [2; 2; 2] (fun i => match i with [b; s; f] => one_hot (nth b [[0; 1]; [1; 1]] []) s f | _ => s0 end)) 2 g (fun b => nth b [[0; 1]; [1; 1]] []) eq_refl) as (out & Eo & _ & G).
    + intros b Hb. destruct b as [|[|b]]; [| |lia]; (split; [reflexivity|]; split; [|reflexivity]); intros k Hk; cbn in Hk; lia.
    + exists out. split; [exact Eo|]. split; (rewrite G by lia); reflexivity.
Qed.
(** and for the rank: a fresh model of bond dimension 1, whose matching pairs have nonzero outputs *)
Example C113_rank_met : exists m0, ti_init R_num 1 1 2 false false (1%R : R_num) true true (fun _ z => z) (fun _ _ => 0%R : R_num) = Ok m0 /\ ti_trained m0 m0 /\
  forall i, i < 2 -> exists out g', ti_forward R_num m0 (TTensor (joined (K := R_num) 2 2 1 (fun _ f => if f =? i then 1%R else 0%R) (fun _ f => if f =? i then 1%R else 0%R))) None = (Ok out, g') /\ get out [0; 0] <> s0.
Proof.
  destruct (C38_constructor R_num 1 1 2 false false (1%R : R_num) true true (fun _ z => z) (fun _ _ => 0%R : R_num) ltac:(discriminate)) as (m0 & Em & Ht & _ & _ & _ & Gc & Gv & Gm & b & Eb & _ & Gb).
  exists m0. split; [exact Em|]. split; [exact Ht|]. intros i Hi.
  destruct (C38_ti_forward R_num 1 1 2 false false (1%R : R_num) true true (fun _ z => z) (fun _ _ => 0%R : R_num) m0 m0 (joined (K := R_num) 2 2 1 (fun _ f => if f =? i then 1%R else 0%R) (fun _ f => if f =? i then 1%R else 0%R)) 1 2 None Em Ht eq_refl ltac:(lia)) as (out & E & _ & G).
  exists out, (Some 1). split; [exact E|]. rewrite (G 0 0 ltac:(lia) ltac:(lia)).
  destruct (ti_init_built R_num _ _ _ _ _ _ _ _ _ _ m0 m0 Em Ht) as [_ ED EF _ Eub _ _ _ _ _].
  assert (E1 : forall a : R, a = 1%R -> a <> 0%R) by (intros a ->; exact R1_neq_R0). apply E1.
  unfold ti_value, sandwich, ti_bias_mat. rewrite ED, EF, Eub, Eb. cbn [bsum seq map chain].
  unfold mmul, site_matrix. cbn [bsum]. rewrite Gv, (Gm 0 0 ltac:(lia) ltac:(lia)), !Gc, (Gb 0 0 ltac:(lia) ltac:(lia)). unfold delta. cbn. ring.
Qed.
Print Assumptions C113_memorise.
Print Assumptions C113_rank.
