(** * P_Sym: changes of the parameters of a ProbMPS / ProbUnifMPS that must not change the
    probabilities (torchmps/prob_mps.py).  C67: gauge transformations and enlarged bonds.
    C68: rescaled cores and boundary vectors.  C69: a uniform model is a fixed-length model with
    equal cores. *)
From Coq Require Import Ring_theory Ring Reals Lra Permutation.
From Verif Require Import Base Scalars Tensor Utils2 MpsBase Embeddings ProbMps Spec MatSpec ModelSpec
  LinAlg Utils2Proofs EinsumProofs MatseqProofs SlimProofs LogNorm ProbProofs P_Prob.

Section Sym.
  Variable K : numfield.
  Add Ring KrSym : (rth K).
  Notation xr := (tensor xreal).
  Notation matK := (mat K).

  Lemma abs2_mul (c z : K) : abs2 (smul c z) = (abs2 c * abs2 z)%R.
  Proof. unfold abs2. rewrite nabs_mul. ring. Qed.
  Lemma abs2_pos (c : K) : c <> s0 -> (0 < abs2 c)%R.
  Proof. intros H. unfold abs2. pose proof (nabs_pos_lt K c H). nra. Qed.

  (** a word as a batch with one row *)
  Definition one_row (n : nat) (xs : list nat) : tensor Z := mkT [1; n] (fun i => Z.of_nat (nth (nth 1 i 0) xs 0)).
  Lemma word_seq xs : map (fun t => nth t xs 0) (seq 0 (List.length xs)) = xs.
  Proof.
    induction xs as [|x xs IH]; [reflexivity|]. cbn [List.length seq map nth]. f_equal.
    rewrite <- seq_shift, map_map. exact IH.
  Qed.
  Lemma words_facts d n xs : In xs (words d n) -> List.length xs = n /\ forall t, t < n -> nth t xs 0 < d.
  Proof.
    revert xs; induction n as [|n IH]; intros xs H; cbn [words] in H.
    - destruct H as [<-|[]]. split; [reflexivity|lia].
    - apply in_flat_map in H as (i & Hi & H). apply in_map_iff in H as (ys & <- & Hy). apply in_seq in Hi.
      destruct (IH ys Hy) as [Hl Hn]. split; [simpl; lia|]. intros [|t] Ht; cbn [nth]; [lia|]. apply Hn. lia.
  Qed.
  Lemma one_row_letters n d xs : In xs (words d n) -> row_letters (one_row n xs) n 0 = xs.
  Proof.
    intros H. destruct (words_facts d n xs H) as [Hl _]. unfold row_letters.
    refine (eq_trans _ (word_seq xs)). rewrite Hl. apply map_ext. intros t. cbn [one_row get nth]. apply Nat2Z.id.
  Qed.
  Lemma one_row_wf n d xs : In xs (words d n) -> wf_input (K := K) (TLong (one_row n xs)) 1 n d.
  Proof.
    intros H. destruct (words_facts d n xs H) as [_ Hn]. split; [reflexivity|]. intros b t _ Ht. cbn [one_row get nth].
    specialize (Hn t Ht). lia.
  Qed.

  (** the amplitudes of two models agree up to the factor c, for all inputs *)
  Definition proportional (uniform uniform' : bool) (m m' : pmps K) (n d D D' : nat) (c : K) : Prop :=
    forall (x : tin K) batch b, wf_input x batch n d -> b < batch ->
      psi K uniform' m' n d D' x b = smul c (psi K uniform m n d D x b).
  Lemma Zfun_scale uniform uniform' (m m' : pmps K) n d D D' (c : K) :
    proportional uniform uniform' m m' n d D D' c ->
    Zfun K uniform' m' n d D' = (abs2 c * Zfun K uniform m n d D)%R.
  Proof.
    intros H. unfold Zfun, partition_fn.
    refine (eq_trans _ (lsum_mul_l R_cring (words d n) (abs2 c) _)).
    apply (lsum_ext R_cring). intros xs Hx. specialize (H (TLong (one_row n xs)) 1 0 (one_row_wf n d xs Hx) ltac:(lia)).
    unfold psi in H. cbn [row_amp] in H. rewrite (one_row_letters n d xs Hx) in H.
    refine (eq_trans (f_equal abs2 H) _). apply abs2_mul.
  Qed.
  (** Two models whose amplitudes agree up to one nonzero factor return the same values. *)
  Lemma same_forward (uniform uniform' : bool) (m m' : pmps K) (x : tin K) (slim par slim' par' : bool)
      (batch n d D D' : nat) (c : K) :
    shapes_of K uniform m n d D -> shapes_of K uniform' m' n d D' ->
    pm_emb K m = None -> pm_emb K m' = None -> 0 < n -> wf_input x batch n d ->
    (slim = true -> pm_bias K m = None) -> (slim' = true -> pm_bias K m' = None) -> c <> s0 ->
    proportional uniform uniform' m m' n d D D' c ->
    (forall T T', snd (fwd K uniform m x slim par) = Ok T -> snd (fwd K uniform' m' x slim' par') = Ok T' ->
       shp T = [batch] /\ shp T' = [batch] /\ forall b, b < batch -> get T' [b] = get T [b]) /\
    ((0 < Zfun K uniform m n d D)%R -> (forall b, b < batch -> psi K uniform m n d D x b <> s0) ->
       exists T T', snd (fwd K uniform m x slim par) = Ok T /\ snd (fwd K uniform' m' x slim' par') = Ok T').
  Proof.
    intros Hsh Hsh' He He' Hn Hx Hsl Hsl' Hc Hpr. pose proof (Zfun_scale _ _ _ _ _ _ _ _ _ Hpr) as HZ.
    assert (Hpsi : forall b, b < batch -> psi K uniform' m' n d D' x b = smul c (psi K uniform m n d D x b)) by (intros; apply (Hpr x batch); assumption).
    destruct (forward_ok K uniform m x slim par batch n d D Hsh He Hx Hn Hsl) as [H _].
    destruct (forward_ok K uniform' m' x slim' par' batch n d D' Hsh' He' Hx Hn Hsl') as [H' _].
    pose proof (abs2_pos c Hc) as Hc2. split.
    - intros T T' ET ET'. rewrite ET in H. rewrite ET' in H'. destruct H as (HZ0 & HT & H). destruct H' as (_ & HT' & H').
      split; [exact HT|]. split; [exact HT'|]. intros b Hb. specialize (H b Hb). specialize (H' b Hb).
      change (is_log (get T [b]) (abs2 (psi K uniform m n d D x b) / Zfun K uniform m n d D)) in H.
      change (is_log (get T' [b]) (abs2 (psi K uniform' m' n d D' x b) / Zfun K uniform' m' n d D')) in H'.
      rewrite Hpsi, HZ, abs2_mul in H' by exact Hb.
      replace (abs2 c * abs2 (psi K uniform m n d D x b) / (abs2 c * Zfun K uniform m n d D))%R
        with (abs2 (psi K uniform m n d D x b) / Zfun K uniform m n d D)%R in H'.
      + apply (is_log_unique _ _ _ H' H).
      + change (0 < Zfun K uniform m n d D)%R in HZ0. field. lra.
    - intros HZ0 Hnz.
      assert (G : forall u (mm : pmps K) DD s p, match snd (fwd K u mm x s p) with
         | Ok T => True
         | Err e => e = AssertionError /\ (Zfun K u mm n d DD = 0%R \/ exists b, b < batch /\ psi K u mm n d DD x b = s0) end ->
         (0 < Zfun K u mm n d DD)%R -> (forall b, b < batch -> psi K u mm n d DD x b <> s0) -> exists T, snd (fwd K u mm x s p) = Ok T).
      { intros u mm DD s p Hm HZm Hpm. destruct (snd (fwd K u mm x s p)) as [T|e]; [eauto|].
        exfalso. destruct Hm as [_ [Hm|(b & Hb & Hm)]]; [lra|]. exact (Hpm b Hb Hm). }
      destruct (G uniform m D slim par) as (T & ET); try assumption.
      { destruct (snd (fwd K uniform m x slim par)); [exact Logic.I|exact H]. }
      destruct (G uniform' m' D' slim' par') as (T' & ET').
      + destruct (snd (fwd K uniform' m' x slim' par')); [exact Logic.I|exact H'].
      + rewrite HZ. apply Rmult_lt_0_compat; assumption.
      + intros b Hb Hz. rewrite Hpsi in Hz by exact Hb. apply (Hnz b Hb). apply abs2_zero.
        assert (abs2 (smul c (psi K uniform m n d D x b)) = 0%R) as E by (rewrite Hz; apply abs2_s0).
        rewrite abs2_mul in E. apply Rmult_integral in E as [E|E]; [lra|exact E].
      + eauto.
  Qed.

  (** a linear relation between the cores of two models carries over to the matrices of a row *)
  Lemma slice_lin (x : tin K) d b t batch n D (c : nat -> nat -> K) (f : nat -> matK) (f' : nat -> K) :
    wf_input x batch n d -> b < batch -> t < n ->
    (forall k, k < d -> f' k = bsum D (fun i => bsum D (fun j => smul (c i j) (f k i j)))) ->
    slice_at K x d f' b t = bsum D (fun i => bsum D (fun j => smul (c i j) (slice_at K x d (fun k => f k i j) b t))).
  Proof.
    intros Hx Hb Ht Hf. destruct x as [ix|v]; cbn [slice_at].
    - destruct Hx as [_ Hx]. specialize (Hx b t Hb Ht). apply Hf. lia.
    - transitivity (bsum d (fun k => bsum D (fun i => bsum D (fun j => smul (c i j) (smul (get v [b; t; k]) (f k i j)))))).
      { apply bsum_ext. intros k Hk. rewrite Hf by exact Hk. rewrite <- bsum_mul_l. apply bsum_ext. intros i Hi.
        rewrite <- bsum_mul_l. apply bsum_ext. intros; ring. }
      rewrite bsum_swap. apply bsum_ext. intros i Hi. rewrite bsum_swap. apply bsum_ext. intros j Hj. apply bsum_mul_l.
  Qed.
  (** ** C67: gauge transformations *)
  (** [H t G t = 1] on every bond t = 0..n: the bond dimension may grow from D to D' *)
  Definition left_inverse (n D D' : nat) (G H : nat -> matK) : Prop :=
    forall t i j, t <= n -> i < D -> j < D -> mmul D' (H t) (G t) i j = delta i j.
  (** A'_t[k] = G_t A_t[k] H_{t+1}, left' = left H_0, right' = G_n right *)
  Definition gauge_of (uniform : bool) (n d D D' : nat) (G H : nat -> matK) (m m' : pmps K) : Prop :=
    (forall t k i j, t < n -> k < d -> i < D' -> j < D' ->
       entry (pm_core K m') uniform t k i j = mmul D (G t) (mmul D (fun a b => entry (pm_core K m) uniform t k a b) (H (S t))) i j) /\
    (forall j, j < D' -> edge_at (pm_edge K m') 0 j = vmul D (edge_at (pm_edge K m) 0) (H 0) j) /\
    (forall i, i < D' -> edge_at (pm_edge K m') 1 i = mulv D (G n) (edge_at (pm_edge K m) 1) i).

  Lemma gauge_chain n D D' (G H : nat -> matK) (f f' : nat -> matK) (v v' w w' : vec K) :
    left_inverse n D D' G H ->
    (forall t i j, t < n -> i < D' -> j < D' -> f' t i j = mmul D (G t) (mmul D (f t) (H (S t))) i j) ->
    (forall j, j < D' -> v' j = vmul D v (H 0) j) -> (forall i, i < D' -> w' i = mulv D (G n) w i) ->
    sandwich D' D' v' (chain (fchain K D' n f')) w' = sandwich D D v (chain (fchain K D n f)) w.
  Proof.
    intros HGH Hf Hv Hw.
    assert (P : forall t, t <= n -> forall j, j < D' -> lprod K D' t v' f' j = vmul D (lprod K D t v f) (H t) j).
    { induction t as [|t IH]; intros Ht j Hj.
      - rewrite lprod_0, Hv by exact Hj. unfold vmul. apply bsum_ext. intros i Hi. rewrite lprod_0 by exact Hi. reflexivity.
      - rewrite lprod_S by exact Hj.
        transitivity (bsum D' (fun k => smul (vmul D (lprod K D t v f) (H t) k) (mmul D (G t) (mmul D (f t) (H (S t))) k j))).
        { apply bsum_ext. intros k Hk. rewrite IH, Hf by (try assumption; lia). reflexivity. }
        transitivity (bsum D (fun a => smul (lprod K D t v f a) (mmul D (f t) (H (S t)) a j))).
        { unfold vmul. transitivity (bsum D' (fun k => bsum D (fun a => smul (lprod K D t v f a) (smul (H t a k) (mmul D (G t) (mmul D (f t) (H (S t))) k j))))).
          { apply bsum_ext. intros k Hk. rewrite <- bsum_mul_r. apply bsum_ext. intros; ring. }
          rewrite bsum_swap. apply bsum_ext. intros a Ha. rewrite bsum_mul_l. f_equal.
          change (mmul D' (H t) (mmul D (G t) (mmul D (f t) (H (S t)))) a j = mmul D (f t) (H (S t)) a j).
          rewrite <- (mmul_assoc K).
          transitivity (mmul D delta (mmul D (f t) (H (S t))) a j); [|apply (mmul_delta_l K); exact Ha].
          apply bsum_ext. intros b Hb. rewrite HGH by (try assumption; lia). reflexivity. }
        unfold vmul. transitivity (bsum D (fun a => bsum D (fun b => smul (smul (lprod K D t v f a) (f t a b)) (H (S t) b j)))).
        { apply bsum_ext. intros a Ha. unfold mmul. rewrite <- bsum_mul_l. apply bsum_ext. intros; ring. }
        rewrite bsum_swap. apply bsum_ext. intros b Hb. rewrite bsum_mul_r, <- lprod_S by exact Hb. reflexivity. }
    rewrite !lprod_sandwich.
    transitivity (bsum D' (fun k => smul (vmul D (lprod K D n v f) (H n) k) (mulv D (G n) w k))).
    { apply bsum_ext. intros k Hk. rewrite P, Hw by (try assumption; lia). reflexivity. }
    unfold vmul, mulv.
    transitivity (bsum D' (fun k => bsum D (fun a => bsum D (fun b => smul (smul (lprod K D n v f a) (w b)) (smul (H n a k) (G n k b)))))).
    { apply bsum_ext. intros k Hk. rewrite bsum_mulsum. apply bsum_ext. intros a Ha. apply bsum_ext. intros; ring. }
    rewrite bsum_swap. apply bsum_ext. intros a Ha. rewrite bsum_swap.
    transitivity (bsum D (fun b => smul (smul (lprod K D n v f a) (w b)) (delta a b))).
    { apply bsum_ext. intros b Hb. rewrite bsum_mul_l. f_equal. apply HGH; try assumption; lia. }
    transitivity (bsum D (fun b => smul (smul (lprod K D n v f a) (w b)) (if b =? a then s1 else s0))).
    { apply bsum_ext. intros b Hb. unfold delta. rewrite Nat.eqb_sym. reflexivity. }
    transitivity (bsum D (fun b => if b =? a then smul (lprod K D n v f a) (w b) else s0)).
    { apply bsum_ext. intros b Hb. destruct (b =? a); ring. }
    apply (bsum_delta K D a (fun b => smul (lprod K D n v f a) (w b)) Ha).
  Qed.

  (** Any gauge transformation, also one that enlarges the bonds, leaves the log probabilities
      unchanged: whenever both calls return, for any evaluation modes, and both calls return when
      the normalisation and the amplitudes are not 0. *)
  Theorem C67_gauge_invariance (uniform : bool) (n d D D' : nat) (G H : nat -> matK) (m m' : pmps K) (x : tin K)
      (slim par slim' par' : bool) (batch : nat) :
    shapes_of K uniform m n d D -> shapes_of K uniform m' n d D' -> 0 < n ->
    pm_emb K m = None -> pm_emb K m' = None -> pm_bias K m = None -> pm_bias K m' = None ->
    left_inverse n D D' G H -> gauge_of uniform n d D D' G H m m' -> wf_input x batch n d ->
    (forall T T', snd (fwd K uniform m x slim par) = Ok T -> snd (fwd K uniform m' x slim' par') = Ok T' ->
       shp T = [batch] /\ shp T' = [batch] /\ forall b, b < batch -> get T' [b] = get T [b]) /\
    ((0 < Zfun K uniform m n d D)%R -> (forall b, b < batch -> psi K uniform m n d D x b <> s0) ->
       exists T T', snd (fwd K uniform m x slim par) = Ok T /\ snd (fwd K uniform m' x slim' par') = Ok T').
  Proof.
    intros Hsh Hsh' Hn He He' Hb Hb' HGH (Hc & Hl & Hr) Hx.
    apply (same_forward uniform uniform m m' x slim par slim' par' batch n d D D' s1); try assumption.
    - intros _; exact Hb.
    - intros _; exact Hb'.
    - intros E. assert (abs2 (s1 : K) = 0%R) as E1 by (rewrite E; apply abs2_s0).
      rewrite <- (nof_1 K) in E1. unfold abs2 in E1. rewrite nabs_of, Rabs_R1 in E1. lra.
    - clear x batch Hx. intros x batch b Hx Hbb. transitivity (psi K uniform m n d D x b); [|ring]. unfold psi. rewrite !row_amp_chain.
      apply (gauge_chain n D D' G H); try assumption. intros t i j Ht Hi Hj. unfold row_site. rewrite Hb, Hb'. cbn [bias_at].
      transitivity (slice_at K x d (fun k => entry (pm_core K m') uniform t k i j) b t).
      { set (z := slice_at K x d _ b t). change (site_mat K (pm_core K m') uniform x d b t i j) with z. ring. }
      rewrite (slice_lin x d b t batch n D (fun a b => smul (G t i a) (H (S t) b j)) (fun k a b => entry (pm_core K m) uniform t k a b)
        (fun k => entry (pm_core K m') uniform t k i j)); try assumption.
      + unfold mmul. apply bsum_ext. intros a Ha. rewrite <- bsum_mul_l. apply bsum_ext. intros e Hee. set (z := slice_at K x d _ b t). change (site_mat K (pm_core K m) uniform x d b t a e) with z. ring.
      + intros k Hk. rewrite Hc by assumption. unfold mmul. apply bsum_ext. intros a Ha. rewrite <- bsum_mul_l. apply bsum_ext. intros e Hee. ring.
  Qed.

  (** ** C68: scales *)
  (** every core is multiplied by a number, and so are the boundary vectors *)
  Definition scaled (uniform : bool) (n d D : nat) (c : nat -> K) (a b : K) (m m' : pmps K) : Prop :=
    (forall t k i j, t < n -> k < d -> i < D -> j < D -> entry (pm_core K m') uniform t k i j = smul (c t) (entry (pm_core K m) uniform t k i j)) /\
    (forall i, i < D -> edge_at (pm_edge K m') 0 i = smul a (edge_at (pm_edge K m) 0 i)) /\
    (forall i, i < D -> edge_at (pm_edge K m') 1 i = smul b (edge_at (pm_edge K m) 1 i)).
  Definition product (n : nat) (c : nat -> K) : K := fold_right (fun t a => smul (c t) a) s1 (seq 0 n).
  Lemma mul_nonzero (x y : K) : x <> s0 -> y <> s0 -> smul x y <> s0.
  Proof.
    intros Hx Hy E. assert (abs2 (smul x y) = 0%R) as E' by (rewrite E; apply abs2_s0). rewrite abs2_mul in E'.
    pose proof (abs2_pos x Hx). pose proof (abs2_pos y Hy). apply Rmult_integral in E'. lra.
  Qed.
  Lemma one_nonzero : (s1 : K) <> s0.
  Proof.
    intros E. assert (abs2 (s1 : K) = 0%R) as E1 by (rewrite E; apply abs2_s0).
    rewrite <- (nof_1 K) in E1. unfold abs2 in E1. rewrite nabs_of, Rabs_R1 in E1. lra.
  Qed.
  Lemma product_nonzero n c : (forall t, t < n -> c t <> s0) -> product n c <> s0.
  Proof.
    intros H. unfold product. assert (G : forall l, (forall t, In t l -> c t <> s0) -> fold_right (fun t a => smul (c t) a) s1 l <> (s0 : K)).
    { induction l as [|t l IH]; intros Hl; cbn [fold_right]; [apply one_nonzero|].
      apply mul_nonzero; [apply Hl; left; reflexivity|apply IH; intros; apply Hl; right; assumption]. }
    apply G. intros t Ht. apply in_seq in Ht. apply H. lia.
  Qed.
  Lemma lprod_scale D v v' a (c : nat -> K) (f f' : nat -> matK) n :
    (forall i, i < D -> v' i = smul a (v i)) ->
    (forall t i j, t < n -> i < D -> j < D -> f' t i j = smul (c t) (f t i j)) ->
    forall t, t <= n -> forall j, j < D -> lprod K D t v' f' j = smul (smul a (product t c)) (lprod K D t v f j).
  Proof.
    intros Hv Hf. induction t as [|t IH]; intros Ht j Hj.
    - rewrite !lprod_0, Hv by exact Hj. unfold product. cbn [seq fold_right]. ring.
    - rewrite !lprod_S by exact Hj. rewrite <- bsum_mul_l. apply bsum_ext. intros k Hk. rewrite IH, Hf by (try assumption; lia).
      replace (product (S t) c) with (smul (product t c) (c t)); [ring|].
      unfold product. rewrite seq_S, fold_right_app. cbn [fold_right plus]. generalize (seq 0 t). intros l.
      induction l as [|u l IHl]; cbn [fold_right]; [ring|]. rewrite <- IHl. ring.
  Qed.

  (** Scaling the cores and the boundary vectors by numbers other than 0 (phases included) leaves
      the log probabilities unchanged. *)
  Theorem C68_scale_invariance (uniform : bool) (n d D : nat) (c : nat -> K) (a b : K) (m m' : pmps K) (x : tin K)
      (slim par slim' par' : bool) (batch : nat) :
    shapes_of K uniform m n d D -> shapes_of K uniform m' n d D -> 0 < n ->
    pm_emb K m = None -> pm_emb K m' = None -> pm_bias K m = None -> pm_bias K m' = None ->
    (forall t, t < n -> c t <> s0) -> a <> s0 -> b <> s0 -> scaled uniform n d D c a b m m' -> wf_input x batch n d ->
    (forall T T', snd (fwd K uniform m x slim par) = Ok T -> snd (fwd K uniform m' x slim' par') = Ok T' ->
       shp T = [batch] /\ shp T' = [batch] /\ forall b, b < batch -> get T' [b] = get T [b]) /\
    ((0 < Zfun K uniform m n d D)%R -> (forall b, b < batch -> psi K uniform m n d D x b <> s0) ->
       exists T T', snd (fwd K uniform m x slim par) = Ok T /\ snd (fwd K uniform m' x slim' par') = Ok T').
  Proof.
    intros Hsh Hsh' Hn He He' Hb Hb' Hc Ha Hbn (Hcore & Hl & Hr) Hx.
    apply (same_forward uniform uniform m m' x slim par slim' par' batch n d D D (smul (smul a (product n c)) b)); try assumption.
    - intros _; exact Hb.
    - intros _; exact Hb'.
    - apply mul_nonzero; [|exact Hbn]. apply mul_nonzero; [exact Ha|]. apply product_nonzero, Hc.
    - clear x batch Hx. intros x batch r Hx Hrr. unfold psi. rewrite !row_amp_chain, !lprod_sandwich, <- bsum_mul_l.
      assert (Hs : forall t i j, t < n -> i < D -> j < D -> row_site K (pm_core K m') (pm_bias K m') uniform d x r t i j =
                     smul (c t) (row_site K (pm_core K m) (pm_bias K m) uniform d x r t i j)).
      { intros t i k Ht Hi Hk. unfold row_site. rewrite Hb, Hb'. cbn [bias_at]. unfold site_mat.
        destruct x as [ix|v]; cbn [slice_at].
        - destruct Hx as [_ Hx]. specialize (Hx r t Hrr Ht).
          change (sadd (entry (pm_core K m') uniform t (Z.to_nat (get ix [r; t])) i k) s0 = smul (c t) (sadd (entry (pm_core K m) uniform t (Z.to_nat (get ix [r; t])) i k) s0)).
          rewrite Hcore by (try assumption; lia). ring.
        - change (sadd (bsum d (fun q => smul (get v [r; t; q]) (entry (pm_core K m') uniform t q i k))) s0 = smul (c t) (sadd (bsum d (fun q => smul (get v [r; t; q]) (entry (pm_core K m) uniform t q i k))) s0)).
          transitivity (sadd (smul (c t) (bsum d (fun q => smul (get v [r; t; q]) (entry (pm_core K m) uniform t q i k)))) s0); [|ring].
          f_equal. rewrite <- bsum_mul_l. apply bsum_ext. intros q Hq. rewrite Hcore by assumption. ring. }
      apply bsum_ext. intros j Hj. rewrite Hr by exact Hj.
      rewrite (lprod_scale D _ _ a c _ _ n Hl Hs n (le_n n) j Hj). ring.
  Qed.

  (** ** C69: a uniform model on sequences of length n is the fixed-length model whose n cores are
      all equal to its core *)
  Definition repeated (n d D : nat) (u : pmps K) : pmps K :=
    mkP K (mkT [n; d; D; D] (fun i => get (pm_core K u) (tl i))) (pm_edge K u) (pm_bias K u) (pm_emb K u).
  Theorem C69_uniform_is_repeated (u : pmps K) (n d D : nat) (x : tin K) (slim par slim' par' : bool) (batch : nat) :
    shapes_unif K u d D -> 0 < n -> pm_emb K u = None -> (slim = true \/ slim' = true -> pm_bias K u = None) -> wf_input x batch n d ->
    (forall T T', snd (forward_unif K u x slim par) = Ok T -> snd (forward_fixed K (repeated n d D u) x slim' par') = Ok T' ->
       shp T = [batch] /\ shp T' = [batch] /\ forall b, b < batch -> get T' [b] = get T [b]) /\
    ((0 < Zfun K true u n d D)%R -> (forall b, b < batch -> psi K true u n d D x b <> s0) ->
       exists T T', snd (forward_unif K u x slim par) = Ok T /\ snd (forward_fixed K (repeated n d D u) x slim' par') = Ok T').
  Proof.
    intros Hsh Hn He Hb Hx.
    apply (same_forward true false u (repeated n d D u) x slim par slim' par' batch n d D D s1); try assumption.
    - destruct Hsh as (Hd & HD & Hc & Hed & Hbi). cbn [shapes_of]. unfold shapes_fixed. cbn [repeated pm_core pm_edge pm_bias shp]. tauto.
    - auto.
    - cbn [repeated pm_bias]. auto.
    - apply one_nonzero.
    - clear x batch Hx. intros x batch b Hx Hbb. transitivity (psi K true u n d D x b); [|ring]. unfold psi. rewrite !row_amp_chain.
      apply sandwich_ext; [reflexivity|reflexivity|]. apply fchain_ext. intros t i j Ht Hi Hj. unfold row_site. cbn [repeated pm_core pm_bias].
      f_equal.
  Qed.
End Sym.

(** ** Non-trivial cases: a two-site model with bonds of size 2, sheared and embedded into bonds of
    size 3; the same model scaled; and a uniform model with a bias. *)
Section Examples.
  Ltac psi_calc :=
    unfold psi, row_amp, amplitude, sandwich, pe_m, pe_mb, pe_u, pe_core4, pe_core3, pe_edge, pe_bias, edge_at, row_letters,
      letter_site, entry, bias_at, mmul;
    cbn -[INR]; unfold mmul; cbn -[INR]; rewrite !INR_IZR_INZ; cbn;
    try change (Pos.to_nat 1) with 1; cbn; try lra.
  Definition sy_G : nat -> mat R_num := fun t i j => if i =? j then 1%R else if (i =? 2) && (j =? 0) then 5%R else 0%R.
  Definition sy_H : nat -> mat R_num := fun t i j => if i =? j then 1%R else 0%R.
  Definition sy_gauged : pmps R_num := mkP R_num
    (mkT [2; 2; 3; 3] (fun i => mmul 2 (sy_G (nth 0 i 0)) (mmul 2 (fun a b => get pe_core4 [nth 0 i 0; nth 1 i 0; a; b]) (sy_H (S (nth 0 i 0)))) (nth 2 i 0) (nth 3 i 0)))
    (mkT [2; 3] (fun i => if nth 0 i 0 =? 0 then vmul 2 (edge_at pe_edge 0) (sy_H 0) (nth 1 i 0) else mulv 2 (sy_G 2) (edge_at pe_edge 1) (nth 1 i 0)))
    None None.
  Example C67_hyps_met : shapes_of R_num false pe_m 2 2 2 /\ shapes_of R_num false sy_gauged 2 2 3 /\
    left_inverse R_num 2 2 3 sy_G sy_H /\ gauge_of R_num false 2 2 2 3 sy_G sy_H pe_m sy_gauged /\
    wf_input (K := R_num) (TLong pe_all) 4 2 2 /\
    (forall b, b < 4 -> psi R_num false pe_m 2 2 2 (TLong pe_all) b <> 0%R).
  Proof.
    split; [apply C09_hyps_met|]. split; [cbn; unfold shapes_fixed; cbn; repeat split; lia|].
    split; [|split; [|split; [apply pe_wf|intros [|[|[|[|b]]]] Hb; [| | | |lia]; psi_calc]]].
    - intros t [|[|i]] [|[|j]] Ht Hi Hj; try lia; unfold mmul, sy_G, sy_H, delta; cbn; ring.
    - split; [|split]; intros; reflexivity.
  Qed.
  Definition sy_scaled : pmps R_num := mkP R_num
    (mkT [2; 2; 2; 2] (fun i => Rmult (INR (3 + nth 0 i 0)) (get pe_core4 i))) (mkT [2; 2] (fun i => (-2 * get pe_edge i)%R)) None None.
  Example C68_hyps_met : shapes_of R_num false sy_scaled 2 2 2 /\
    scaled R_num false 2 2 2 (fun t => INR (3 + t)) (-2)%R (-2)%R pe_m sy_scaled /\ (forall t, t < 2 -> INR (3 + t) <> 0%R).
  Proof.
    split; [cbn; unfold shapes_fixed; cbn; repeat split; lia|]. split; [split; [|split]; intros; reflexivity|].
    intros t _. rewrite plus_INR. pose proof (pos_INR t). cbn. lra.
  Qed.
  Example C69_hyps_met : shapes_unif R_num pe_u 2 2 /\ (forall b, b < 4 -> psi R_num true pe_u 2 2 2 (TLong pe_all) b <> 0%R).
  Proof. split; [apply C09_hyps_met|apply C10_hyps_met]. Qed.
End Examples.

Print Assumptions C67_gauge_invariance.
Print Assumptions C68_scale_invariance.
Print Assumptions C69_uniform_is_repeated.
