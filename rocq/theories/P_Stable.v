(** * P_Stable: C103, the log format keeps the returned numbers in range
    (torchmps/mps_base.py contract_matseq, mat_reduce_par, mat_reduce_seq, slim_eval_fun). *)
From Coq Require Import Ring_theory Ring Reals Lra.
From Verif Require Import Base Scalars Tensor Utils2 MpsBase ProbMps Spec MatSpec ModelSpec LinAlg Utils2Proofs MatseqProofs
  ParProofs MatTop MatFinal SlimProofs ProbProofs P_Matseq NabsTri Stable Stable2.

(** *** Specification *)
(** sum of a function over all indices of a shape, and the number of these indices *)
Fixpoint sum_over (sh : list nat) (f : list nat -> R) : R :=
  match sh with
  | [] => f []
  | n :: sh => bsum (S := R_ops) n (fun i => sum_over sh (fun r => f (i :: r)))
  end.
Definition numel (sh : list nat) : nat := fold_right Nat.mul 1 sh.
(** whether anything is rescaled: at least one product of two factors (the boundary vectors
    are not rescaled by the parallel strategy) *)
Definition rescaled {A} (m : tseq A) (lv rv : option (tensor A)) (par : bool) : bool :=
  if parallel m lv rv par then 2 <=? n_mats m else 2 <=? n_mats m + n_vecs lv rv.

Section P.
  Variable K : numfield.
  Add Ring KrPS : (rth K).

  (** The number by which the exact product is divided: the sum of the absolute values of the
      entries of the product of the matrices over the bond dimension (parallel strategy), or
      that of the whole product over the square root of its number of entries (sequential). *)
  Definition size_ref (m : tseq K) (lv rv : option (tensor K)) (par : bool) (d e : nat) (b : list nat) : R :=
    if rescaled m lv rv par then
      if parallel m lv rv par
      then (sum_over [d; e] (fun r => nabs K (chain (seq_mats m b) (nth 0 r 0%nat) (nth 1 r 0%nat))) / INR d)%R
      else (sum_over (out_shape lv rv d e) (fun r => nabs K (exact_entry m lv rv d e b r))
            / sqrt (INR (numel (out_shape lv rv d e))))%R
    else 1%R.

  Lemma sum_over_2 m n (C : mat K) : sum_over [m; n] (fun r => nabs K (C (nth 0 r 0) (nth 1 r 0))) = abssum K m n C.
  Proof. reflexivity. Qed.
  Lemma sum_over_ext sh : forall f g, (forall r, valid sh r -> f r = g r) -> sum_over sh f = sum_over sh g.
  Proof.
    induction sh as [|n sh IH]; intros f g H; cbn [sum_over].
    - apply H. constructor.
    - apply (bsum_ext (S := R_ops)). intros i Hi. apply IH. intros r Hr. apply H. constructor; assumption.
  Qed.
  Lemma sum_over_nonneg sh : forall f, (forall r, valid sh r -> (0 <= f r)%R) -> (0 <= sum_over sh f)%R.
  Proof.
    induction sh as [|n sh IH]; intros f H; cbn [sum_over]; [apply H; constructor|].
    apply bsumR_nonneg. intros i Hi. apply IH. intros r Hr. apply H. constructor; assumption.
  Qed.
  Lemma bsumR_ge n (f : nat -> R) i : (forall j, j < n -> (0 <= f j)%R) -> i < n -> (f i <= bsum (S := R_ops) n f)%R.
  Proof.
    induction n as [|n IH]; intros Hf Hi; [lia|].
    change (f i <= bsum (S := R_ops) n f + f n)%R.
    assert (0 <= bsum (S := R_ops) n f)%R by (apply bsumR_nonneg; intros; apply Hf; lia).
    destruct (Nat.eq_dec i n) as [->|Hne]; [lra|].
    specialize (IH (fun j Hj => Hf j ltac:(lia)) ltac:(lia)). specialize (Hf n ltac:(lia)). lra.
  Qed.
  Lemma bsumR_le n (f g : nat -> R) : (forall j, j < n -> (f j <= g j)%R) -> (bsum (S := R_ops) n f <= bsum (S := R_ops) n g)%R.
  Proof.
    induction n as [|n IH]; intros H; [apply Rle_refl|].
    change (bsum (S := R_ops) n f + f n <= bsum (S := R_ops) n g + g n)%R.
    apply Rplus_le_compat; [apply IH; intros; apply H; lia|apply H; lia].
  Qed.
  Lemma sum_over_ge sh : forall f r, (forall r, valid sh r -> (0 <= f r)%R) -> valid sh r -> (f r <= sum_over sh f)%R.
  Proof.
    induction sh as [|n sh IH]; intros f r H Hr; inversion Hr; subst; cbn [sum_over]; [apply Rle_refl|].
    eapply Rle_trans; [apply (IH (fun r => f (_ :: r)))|]; [|eassumption|].
    - intros q Hq. apply H. constructor; assumption.
    - apply (bsumR_ge n (fun i => sum_over sh (fun r => f (i :: r)))); [|assumption].
      intros j Hj. apply sum_over_nonneg. intros q Hq. apply H. constructor; assumption.
  Qed.
  Lemma sum_over_scale sh : forall f c, sum_over sh (fun r => f r * c)%R = (sum_over sh f * c)%R.
  Proof.
    induction sh as [|n sh IH]; intros f c; cbn [sum_over]; [reflexivity|].
    change (bsum (S := R_ops) n (fun i => sum_over sh (fun r => (f (i :: r) * c)%R)) =
      @smul R_cring (bsum (S := R_cring) n (fun i => sum_over sh (fun r => f (i :: r)))) c).
    rewrite <- (bsum_mul_r R_cring). apply (bsum_ext (S := R_ops)). intros i Hi. apply IH.
  Qed.

  Lemma scale_lift m lv rv par d e b :
    xscale K (tslift m) (option_map tlift lv) (option_map tlift rv) par d e b
      (fun r => gen_entry K
           (option_map (fun t i => fval K (get t (bproj (droplast 1 (shp t)) b ++ [i]))) (option_map tlift lv))
           (option_map (fun t i => fval K (get t (bproj (droplast 1 (shp t)) b ++ [i]))) (option_map tlift rv))
           (chain (xmats K (tslift m) b)) d e r) = size_ref m lv rv par d e b.
  Proof.
    unfold xscale, size_ref, rescaled. rewrite xmats_lift.
    assert (Hn : n_mats (tslift m) = n_mats m) by (destruct m; cbn; [reflexivity|apply map_length]).
    assert (Hss : same_shapes (tslift m) = same_shapes m).
    { destruct m as [t|[|t l]]; try reflexivity. cbn [tslift map same_shapes]. clear.
      induction l as [|u l IH]; [reflexivity|]. cbn [map forallb]. rewrite IH. reflexivity. }
    assert (Hvn : n_vecs (option_map (@tlift K) lv) (option_map (@tlift K) rv) = n_vecs lv rv) by (destruct lv, rv; reflexivity).
    unfold parallel. rewrite Hn, Hss, Hvn.
    assert (Hb : forall a, (a <? 2) = negb (2 <=? a)) by (intros; apply Nat.ltb_antisym). rewrite !Hb.
    destruct (same_shapes m && (par || (n_vecs lv rv =? 0))).
    - destruct (2 <=? n_mats m); reflexivity.
    - destruct (2 <=? n_mats m + n_vecs lv rv); [|reflexivity]. cbn [negb].
      destruct lv as [v|], rv as [w|]; cbn [option_map out_shape numel fold_right].
      all: rewrite ?Nat.mul_1_r, ?Nat.mul_1_l.
      all: unfold Rdiv; apply (f_equal2 Rmult); [|reflexivity].
      + change (0 + (0 + nabs K (exact_entry m (Some v) (Some w) d e b [])) = nabs K (exact_entry m (Some v) (Some w) d e b []))%R. ring.
      + change (0 + bsum (S := R_ops) e (fun j => nabs K (exact_entry m (Some v) None d e b [j]))
          = bsum (S := R_ops) e (fun j => nabs K (exact_entry m (Some v) None d e b [j])))%R. ring.
      + change (bsum (S := R_ops) d (fun i => (0 + nabs K (exact_entry m None (Some w) d e b [i]))%R)
          = bsum (S := R_ops) d (fun i => nabs K (exact_entry m None (Some w) d e b [i]))).
        apply (bsum_ext (S := R_ops)). intros i Hi. apply Rplus_0_l.
      + reflexivity.
  Qed.

  Lemma nonan_size m lv rv par d e b : 0 < d -> 0 < e -> ~ nan_case m lv rv par d e b -> (0 < size_ref m lv rv par d e b)%R.
  Proof.
    intros Hd He Hn. unfold size_ref. destruct (rescaled m lv rv par) eqn:Er; [|lra].
    unfold rescaled in Er. unfold nan_case in Hn.
    assert (Hpos : forall sh (f : list nat -> K), ~ (forall r, valid sh r -> f r = s0) ->
       (0 < sum_over sh (fun r => nabs K (f r)))%R).
    { intros sh f Hf.
      assert (H0 : (0 <= sum_over sh (fun r => nabs K (f r)))%R) by (apply sum_over_nonneg; intros; apply nabs_pos).
      destruct H0 as [|H0]; [assumption|]. exfalso. apply Hf. intros r Hr.
      pose proof (sum_over_ge sh (fun r => nabs K (f r)) r (fun q _ => nabs_pos K (f q)) Hr) as Hle. cbv beta in Hle.
      apply (nabs_0 K). pose proof (nabs_pos K (f r)). lra. }
    destruct (parallel m lv rv par).
    - apply Nat.leb_le in Er. apply Rdiv_lt_0_compat; [|apply lt_0_INR, Hd].
      apply (Hpos [d; e] (fun r => chain (seq_mats m b) (nth 0 r 0) (nth 1 r 0))).
      intros Hz. apply Hn. split; [exact Er|]. intros i j Hi Hj. apply (Hz [i; j]). apply valid_2. auto.
    - apply Nat.leb_le in Er. apply Rdiv_lt_0_compat.
      + apply (Hpos (out_shape lv rv d e) (fun r => exact_entry m lv rv d e b r)).
        intros Hz. apply Hn. split; [exact Er|exact Hz].
      + apply sqrt_lt_R0, lt_0_INR. destruct lv, rv; cbn [out_shape numel fold_right]; nia.
  Qed.

  (** C103: the two outputs of contract_matseq, exactly.  Where the result is not NaN (nan_case,
      see C89), log_scale is the logarithm of the size of the exact product and contraction is
      the exact product divided by that size. *)
  Theorem C103_split (m : tseq K) (lv rv : option (tensor K)) (par : bool) (B : list nat) (d e : nat) :
    seq_shape m d e -> vec_shape lv d -> vec_shape rv e ->
    is_broadcast (vec_batches lv ++ vec_batches rv ++ seq_batches m) B -> 0 < d -> 0 < e ->
    exists P L,
      contract_matseq K (tslift m) (option_map tlift lv) (option_map tlift rv) par = Ok (P, L) /\
      shp P = B ++ out_shape lv rv d e /\
      shp L = B ++ repeat 1 (List.length (out_shape lv rv d e)) /\
      forall b, valid B b -> ~ nan_case m lv rv par d e b ->
        let S := size_ref m lv rv par d e b in
        (0 < S)%R /\
        get L (b ++ repeat 0 (List.length (out_shape lv rv d e))) = XFin (ln S) /\
        forall r, valid (out_shape lv rv d e) r ->
          get P (b ++ r) = Fin (smul (exact_entry m lv rv d e b r) (nofR K (/ S))).
  Proof.
    intros H1 H2 H3 H4 Hd He.
    destruct (contract_matseq_dichotomy K m lv rv par B d e H1 H2 H3 H4) as (P & L & E & HP & HL & H).
    exists P, L. split; [exact E|]. split; [exact HP|]. split; [exact HL|].
    intros b Hb Hn. cbv zeta. pose proof (nonan_size m lv rv par d e b Hd He Hn) as HS. split; [exact HS|].
    destruct (H b Hb Hd He) as (_ & _ & Hf & _). destruct (Hf Hn) as (s & Hs & Hc).
    assert (Hcond : ~ nan_x K (tslift m) (option_map tlift lv) (option_map tlift rv) par d e b
        (fun r => gen_entry K
           (option_map (fun t i => fval K (get t (bproj (droplast 1 (shp t)) b ++ [i]))) (option_map tlift lv))
           (option_map (fun t i => fval K (get t (bproj (droplast 1 (shp t)) b ++ [i]))) (option_map tlift rv))
           (chain (xmats K (tslift m) b)) d e r)).
    { intros Hx. apply Hn. revert Hx. unfold nan_case, nan_x. rewrite xmats_lift, out_shape_lift.
      assert (Hnm : n_mats (tslift m) = n_mats m) by (destruct m; cbn; [reflexivity|apply map_length]).
      assert (Hvn : n_vecs (option_map (@tlift K) lv) (option_map (@tlift K) rv) = n_vecs lv rv) by (destruct lv, rv; reflexivity).
      assert (Hss : same_shapes (tslift m) = same_shapes m).
      { destruct m as [t|[|t l]]; try reflexivity. cbn [tslift map same_shapes]. clear.
        induction l as [|u l IH]; [reflexivity|]. cbn [map forallb]. rewrite IH. reflexivity. }
      unfold parallel. rewrite Hnm, Hvn, Hss. destruct (same_shapes m && (par || (n_vecs lv rv =? 0))); [exact (fun h => h)|].
      intros [Ha Hz]. split; [exact Ha|]. intros r Hr. rewrite <- (Hz r Hr). destruct lv, rv; reflexivity. }
    pose proof (contract_scale K (tslift m) (option_map tlift lv) (option_map tlift rv) par B d e P L b) as Hsc.
    cbv zeta in Hsc. rewrite out_shape_lift, scale_lift in Hsc.
    assert (HL1 : get L (b ++ repeat 0 (List.length (out_shape lv rv d e))) = XFin (ln (size_ref m lv rv par d e b))).
    { apply Hsc; try assumption.
      - apply seq_shape_lift, H1.
      - apply vec_shape_lift, H2.
      - apply vec_shape_lift, H3.
      - apply seq_finite_lift.
      - intros t Ht. destruct lv; [|discriminate]. injection Ht as <-. apply tfinite_lift.
      - intros t Ht. destruct rv; [|discriminate]. injection Ht as <-. apply tfinite_lift.
      - rewrite !vec_batches_lift, seq_batches_lift. exact H4. }
    split; [exact HL1|]. rewrite HL1 in Hs. injection Hs as <-. rewrite exp_ln in Hc by exact HS.
    intros r Hr. destruct (Hc r Hr) as (c & Hg & Hx). rewrite Hg. f_equal.
    change (smul c (nofR K (size_ref m lv rv par d e b)) = exact_entry m lv rv d e b r) in Hx. rewrite <- Hx.
    transitivity (smul c (smul (nofR K (size_ref m lv rv par d e b)) (nofR K (/ size_ref m lv rv par d e b)))); [|ring].
    rewrite nofR_inv by lra. ring.
  Qed.

  Lemma nabs_ofR_pos t : (0 < t)%R -> nabs K (nofR K (/ t)) = (/ t)%R.
  Proof. intros Ht. rewrite nabs_of, Rabs_pos_eq; [reflexivity|]. left. apply Rinv_0_lt_compat, Ht. Qed.

  (** C103: whatever the size of the exact product, the returned contraction has a fixed size:
      its absolute values add up to the square root of the number of entries (sequential
      strategy), or to the bond dimension (parallel strategy without boundary vectors); with
      boundary vectors the parallel strategy adds one multiplication by each of them. *)
  Theorem C103_in_range (m : tseq K) (lv rv : option (tensor K)) (par : bool) (B : list nat) (d e : nat) :
    seq_shape m d e -> vec_shape lv d -> vec_shape rv e ->
    is_broadcast (vec_batches lv ++ vec_batches rv ++ seq_batches m) B -> 0 < d -> 0 < e ->
    rescaled m lv rv par = true ->
    exists P L,
      contract_matseq K (tslift m) (option_map tlift lv) (option_map tlift rv) par = Ok (P, L) /\
      forall b, valid B b -> ~ nan_case m lv rv par d e b ->
        exists c : list nat -> K,
          (forall r, valid (out_shape lv rv d e) r -> get P (b ++ r) = Fin (c r)) /\
          (parallel m lv rv par = false ->
             sum_over (out_shape lv rv d e) (fun r => nabs K (c r)) = sqrt (INR (numel (out_shape lv rv d e)))) /\
          (parallel m lv rv par = true -> lv = None -> rv = None ->
             sum_over [d; e] (fun r => nabs K (c r)) = INR d) /\
          (parallel m lv rv par = true -> forall al be : R,
             (0 <= al)%R -> (0 <= be)%R ->
             match lv with Some v => forall i, i < d -> (nabs K (vec_at v b i) <= al)%R | None => al = 1%R end ->
             match rv with Some w => forall i, i < e -> (nabs K (vec_at w b i) <= be)%R | None => be = 1%R end ->
             forall r, valid (out_shape lv rv d e) r -> (nabs K (c r) <= INR d * al * be)%R).
  Proof.
    intros H1 H2 H3 H4 Hd He Hre.
    destruct (C103_split m lv rv par B d e H1 H2 H3 H4 Hd He) as (P & L & E & _ & _ & H).
    exists P, L. split; [exact E|]. intros b Hb Hn. destruct (H b Hb Hn) as (HS & _ & HP).
    assert (HSd : size_ref m lv rv par d e b = size_ref m lv rv par d e b) by reflexivity.
    unfold size_ref at 2 in HSd. rewrite Hre in HSd.
    set (S0 := size_ref m lv rv par d e b) in *.
    exists (fun r => smul (exact_entry m lv rv d e b r) (nofR K (/ S0))).
    split; [exact HP|].
    assert (Hsum : forall sh (f : list nat -> K),
      sum_over sh (fun r => nabs K (smul (f r) (nofR K (/ S0)))) = (sum_over sh (fun r => nabs K (f r)) / S0)%R).
    { intros sh f. unfold Rdiv. rewrite <- sum_over_scale. apply sum_over_ext. intros r _.
      rewrite nabs_mul, nabs_ofR_pos by exact HS. reflexivity. }
    assert (HdR : (0 < INR d)%R) by (apply lt_0_INR, Hd).
    split; [|split].
    - intros Hp. rewrite Hp in HSd. rewrite Hsum.
      set (A := sum_over (out_shape lv rv d e) (fun r => nabs K (exact_entry m lv rv d e b r))) in *.
      assert (Hq : (0 < sqrt (INR (numel (out_shape lv rv d e))))%R).
      { apply sqrt_lt_R0, lt_0_INR. destruct lv, rv; cbn [out_shape numel fold_right]; nia. }
      rewrite HSd in HS |- *. assert (A <> 0%R) by (intros Hz; rewrite Hz in HS; unfold Rdiv in HS; rewrite Rmult_0_l in HS; lra).
      field. split; lra.
    - intros Hp El Er. rewrite Hp in HSd. subst lv rv. rewrite Hsum.
      change (sum_over [d; e] (fun r => nabs K (exact_entry m None None d e b r))) with
        (sum_over [d; e] (fun r => nabs K (chain (seq_mats m b) (nth 0 r 0%nat) (nth 1 r 0%nat)))) .
      set (A := sum_over [d; e] (fun r => nabs K (chain (seq_mats m b) (nth 0 r 0%nat) (nth 1 r 0%nat)))) in *.
      rewrite HSd in HS |- *. assert (A <> 0%R) by (intros Hz; rewrite Hz in HS; unfold Rdiv in HS; rewrite Rmult_0_l in HS; lra).
      field. split; lra.
    - intros Hp al be Hal Hbe Hv Hw r Hr. rewrite Hp in HSd. cbv beta. rewrite nabs_mul, nabs_ofR_pos by exact HS.
      set (X := chain (seq_mats m b)) in *.
      change (sum_over [d; e] (fun r => nabs K (X (nth 0 r 0%nat) (nth 1 r 0%nat)))) with (abssum K d e X) in HSd.
      assert (Hb1 : (nabs K (exact_entry m lv rv d e b r) <= abssum K d e X * al * be)%R).
      { assert (Habs : forall i j, i < d -> j < e -> (nabs K (X i j) <= abssum K d e X)%R).
        { intros i j Hi Hj. apply (sum_over_ge [d; e] (fun r => nabs K (X (nth 0 r 0) (nth 1 r 0))) [i; j]);
            [intros; apply nabs_pos|apply valid_2; auto]. }
        unfold exact_entry. fold X. cbv zeta.
        destruct lv as [v|], rv as [w|]; cbn [out_shape] in Hr.
        - unfold sandwich. eapply Rle_trans; [apply nabs_bsum|].
          unfold abssum. rewrite Rmult_assoc.
          change (bsum (S := R_ops) d (fun i => nabs K (bsum e (fun j => smul (vec_at v b i) (smul (X i j) (vec_at w b j))))) <=
            @smul R_cring (bsum (S := R_cring) d (fun i => bsum (S := R_ops) e (fun j => nabs K (X i j)))) (al * be)%R)%R.
          rewrite <- (bsum_mul_r R_cring). apply bsumR_le. intros i Hi.
          eapply Rle_trans; [apply nabs_bsum|].
          change (bsum (S := R_ops) e (fun j => nabs K (smul (vec_at v b i) (smul (X i j) (vec_at w b j)))) <=
            @smul R_cring (bsum (S := R_cring) e (fun j => nabs K (X i j))) (al * be)%R)%R.
          rewrite <- (bsum_mul_r R_cring). apply bsumR_le. intros j Hj.
          change (nabs K (smul (vec_at v b i) (smul (X i j) (vec_at w b j))) <= nabs K (X i j) * (al * be))%R.
          rewrite !nabs_mul. pose proof (nabs_pos K (X i j)). pose proof (nabs_pos K (vec_at v b i)). pose proof (nabs_pos K (vec_at w b j)).
          pose proof (Rmult_le_compat _ _ _ _ (nabs_pos K (vec_at v b i)) (nabs_pos K (vec_at w b j)) (Hv i Hi) (Hw j Hj)). nra.
        - apply valid_cons in Hr as (j & r' & -> & Hj & _). cbn [nth]. subst be. rewrite Rmult_1_r.
          unfold vmul. eapply Rle_trans; [apply nabs_bsum|]. unfold abssum.
          change (bsum (S := R_ops) d (fun i => nabs K (smul (vec_at v b i) (X i j))) <=
            @smul R_cring (bsum (S := R_cring) d (fun i => bsum (S := R_ops) e (fun j => nabs K (X i j)))) al)%R.
          rewrite <- (bsum_mul_r R_cring). apply bsumR_le. intros i Hi.
          change (nabs K (smul (vec_at v b i) (X i j)) <= bsum (S := R_ops) e (fun j => nabs K (X i j)) * al)%R.
          rewrite nabs_mul, Rmult_comm.
          apply Rmult_le_compat; try apply nabs_pos; [|apply Hv, Hi].
          apply (bsumR_ge e (fun j => nabs K (X i j)) j); [intros; apply nabs_pos|exact Hj].
        - apply valid_cons in Hr as (i & r' & -> & Hi & _). cbn [nth]. subst al. rewrite Rmult_1_r.
          unfold mulv. eapply Rle_trans; [apply nabs_bsum|].
          apply Rle_trans with (bsum (S := R_ops) e (fun j => nabs K (X i j)) * be)%R.
          + change (bsum (S := R_ops) e (fun j => nabs K (smul (X i j) (vec_at w b j))) <=
              @smul R_cring (bsum (S := R_cring) e (fun j => nabs K (X i j))) be)%R.
            rewrite <- (bsum_mul_r R_cring). apply bsumR_le. intros j Hj.
            change (nabs K (smul (X i j) (vec_at w b j)) <= nabs K (X i j) * be)%R.
            rewrite nabs_mul. apply Rmult_le_compat_l; [apply nabs_pos|apply Hw, Hj].
          + apply Rmult_le_compat_r; [exact Hbe|].
            apply (bsumR_ge d (fun i => bsum (S := R_ops) e (fun j => nabs K (X i j))) i); [|exact Hi].
            intros. apply bsumR_nonneg. intros; apply nabs_pos.
        - subst al be. rewrite !Rmult_1_r. apply valid_cons in Hr as (i & r' & -> & Hi & Hr').
          apply valid_cons in Hr' as (j & r'' & -> & Hj & _). apply Habs; assumption. }
      assert (HA : (0 < abssum K d e X)%R).
      { rewrite HSd in HS. apply (Rmult_lt_compat_r (INR d)) in HS; [|exact HdR].
        unfold Rdiv in HS. rewrite Rmult_0_l, Rmult_assoc, Rinv_l, Rmult_1_r in HS by lra. exact HS. }
      apply Rle_trans with (abssum K d e X * al * be * / S0)%R.
      + apply Rmult_le_compat_r; [left; apply Rinv_0_lt_compat, HS|exact Hb1].
      + right. rewrite HSd. field. split; lra.
  Qed.

  (** C103: multiplying every matrix by the same positive number c changes only log_scale. *)
  Definition tscale (c : R) (t : tensor K) : tensor K := tmap (fun z => smul (nofR K c) z) t.
  Definition sscale (c : R) (m : tseq K) : tseq K :=
    match m with TOne t => TOne (tscale c t) | TMany l => TMany (map (tscale c) l) end.
  Fixpoint kpow (c : K) (n : nat) : K := match n with 0 => s1 | S n => smul c (kpow c n) end.
  Lemma kpow_ofR c n : kpow (nofR K c) n = nofR K (c ^ n).
  Proof. induction n as [|n IH]; [symmetry; apply nof_1|]. cbn [kpow pow]. rewrite IH, nof_mul. reflexivity. Qed.
  Lemma chain_scaled c (ms : list (nat * mat K)) i j :
    chain (map (fun p => (fst p, fun i j => smul c (snd p i j))) ms) i j = smul (kpow c (List.length ms)) (chain ms i j).
  Proof.
    revert i; induction ms as [|[n M] ms IH]; intros i.
    - cbn. ring.
    - cbn [map fst snd List.length kpow]. rewrite !chain_cons. unfold mmul. rewrite <- bsum_mul_l.
      apply bsum_ext. intros k Hk. rewrite IH. ring.
  Qed.
  Lemma seq_mats_scale c m b i j :
    chain (seq_mats (sscale c m) b) i j = smul (nofR K (c ^ n_mats m)) (chain (seq_mats m b) i j).
  Proof.
    rewrite <- kpow_ofR. assert (Hl : List.length (seq_mats m b) = n_mats m).
    { destruct m; cbn [seq_mats n_mats]; rewrite map_length; [apply seq_length|reflexivity]. }
    rewrite <- Hl, <- chain_scaled. f_equal.
    destruct m as [t|l]; cbn [sscale seq_mats]; rewrite !map_map; reflexivity.
  Qed.
  Lemma exact_scale c m lv rv d e b r :
    exact_entry (sscale c m) lv rv d e b r = smul (nofR K (c ^ n_mats m)) (exact_entry m lv rv d e b r).
  Proof.
    unfold exact_entry. cbv zeta. destruct lv as [v|], rv as [w|].
    - unfold sandwich. rewrite <- bsum_mul_l. apply bsum_ext. intros i _. rewrite <- bsum_mul_l. apply bsum_ext. intros j _.
      rewrite seq_mats_scale. ring.
    - unfold vmul. rewrite <- bsum_mul_l. apply bsum_ext. intros i _. rewrite seq_mats_scale. ring.
    - unfold mulv. rewrite <- bsum_mul_l. apply bsum_ext. intros i _. rewrite seq_mats_scale. ring.
    - apply seq_mats_scale.
  Qed.
  Lemma shapes_scale c m lv rv par : n_mats (sscale c m) = n_mats m /\ parallel (sscale c m) lv rv par = parallel m lv rv par /\
    seq_batches (sscale c m) = seq_batches m /\ forall d e, seq_shape m d e -> seq_shape (sscale c m) d e.
  Proof.
    split; [destruct m; cbn; [reflexivity|apply map_length]|]. split; [|split].
    - unfold parallel. f_equal. destruct m as [t|[|t l]]; try reflexivity. cbn [sscale map same_shapes]. clear.
      induction l as [|u l IH]; [reflexivity|]. cbn [map forallb]. rewrite IH. reflexivity.
    - destruct m as [t|l]; [reflexivity|]. cbn. rewrite map_map. reflexivity.
    - intros d e. destruct m as [t|l]; [exact (fun H => H)|]. cbn. induction 1 as [|B d n e t ts Hs H IH]; [constructor|].
      cbn. apply (compat_cons B d n); [exact Hs|exact IH].
  Qed.
  Lemma mul_pow_zero c n (z : K) : (0 < c)%R -> smul (nofR K (c ^ n)) z = s0 -> z = s0.
  Proof.
    intros Hc Hz. pose proof (pow_lt c n Hc) as Hp.
    transitivity (smul (smul (nofR K (c ^ n)) (nofR K (/ c ^ n))) z).
    - rewrite nofR_inv by lra. ring.
    - transitivity (smul (nofR K (/ c ^ n)) (smul (nofR K (c ^ n)) z)); [ring|]. rewrite Hz. ring.
  Qed.
  Lemma size_scale c m lv rv par d e b : (0 < c)%R -> rescaled m lv rv par = true ->
    size_ref (sscale c m) lv rv par d e b = (c ^ n_mats m * size_ref m lv rv par d e b)%R.
  Proof.
    intros Hc Hre. destruct (shapes_scale c m lv rv par) as (Hn & Hp & _).
    unfold size_ref, rescaled in *. rewrite Hn, Hp, Hre. pose proof (pow_lt c (n_mats m) Hc) as Hpw.
    destruct (parallel m lv rv par).
    - rewrite (sum_over_ext [d; e] _ (fun r => nabs K (chain (seq_mats m b) (nth 0 r 0%nat) (nth 1 r 0%nat)) * c ^ n_mats m)%R).
      + rewrite sum_over_scale. unfold Rdiv. ring.
      + intros r _. rewrite seq_mats_scale, nabs_mul, nabs_of, Rabs_pos_eq by lra. ring.
    - rewrite (sum_over_ext (out_shape lv rv d e) _ (fun r => nabs K (exact_entry m lv rv d e b r) * c ^ n_mats m)%R).
      + rewrite sum_over_scale. unfold Rdiv. ring.
      + intros r _. rewrite exact_scale, nabs_mul, nabs_of, Rabs_pos_eq by lra. ring.
  Qed.
  Theorem C103_scaling (c : R) (m : tseq K) (lv rv : option (tensor K)) (par : bool) (B : list nat) (d e : nat) :
    (0 < c)%R -> seq_shape m d e -> vec_shape lv d -> vec_shape rv e ->
    is_broadcast (vec_batches lv ++ vec_batches rv ++ seq_batches m) B -> 0 < d -> 0 < e ->
    rescaled m lv rv par = true ->
    exists P L P' L',
      contract_matseq K (tslift m) (option_map tlift lv) (option_map tlift rv) par = Ok (P, L) /\
      contract_matseq K (tslift (sscale c m)) (option_map tlift lv) (option_map tlift rv) par = Ok (P', L') /\
      forall b, valid B b -> ~ nan_case m lv rv par d e b ->
        (exists s, get L (b ++ repeat 0 (List.length (out_shape lv rv d e))) = XFin s /\
           get L' (b ++ repeat 0 (List.length (out_shape lv rv d e))) = XFin (s + INR (n_mats m) * ln c)) /\
        forall r, valid (out_shape lv rv d e) r -> get P' (b ++ r) = get P (b ++ r).
  Proof.
    intros Hc H1 H2 H3 H4 Hd He Hre. destruct (shapes_scale c m lv rv par) as (Hn & Hp & Hsb & Hss).
    destruct (C103_split m lv rv par B d e H1 H2 H3 H4 Hd He) as (P & L & E & _ & _ & H).
    destruct (C103_split (sscale c m) lv rv par B d e (Hss d e H1) H2 H3) as (P' & L' & E' & _ & _ & H');
      [rewrite Hsb; exact H4|exact Hd|exact He|].
    exists P, L, P', L'. split; [exact E|]. split; [exact E'|]. intros b Hb Hnn.
    assert (Hnn' : ~ nan_case (sscale c m) lv rv par d e b).
    { intros Hx. apply Hnn. revert Hx. unfold nan_case. rewrite Hn, Hp. destruct (parallel m lv rv par).
      - intros [Ha Hz]. split; [exact Ha|]. intros i j Hi Hj. apply (mul_pow_zero c (n_mats m)); [exact Hc|].
        rewrite <- seq_mats_scale. apply Hz; assumption.
      - intros [Ha Hz]. split; [exact Ha|]. intros r Hr. apply (mul_pow_zero c (n_mats m)); [exact Hc|].
        rewrite <- exact_scale. apply Hz; assumption. }
    destruct (H b Hb Hnn) as (HS & HL & HP). destruct (H' b Hb Hnn') as (HS' & HL' & HP').
    pose proof (pow_lt c (n_mats m) Hc) as Hpw.
    pose proof (size_scale c m lv rv par d e b Hc Hre) as Esz. split.
    - exists (ln (size_ref m lv rv par d e b)). split; [exact HL|]. rewrite HL'. f_equal. rewrite Esz, ln_mult by assumption.
      assert (Eln : ln (c ^ n_mats m) = (INR (n_mats m) * ln c)%R).
      { clear - Hc. induction (n_mats m) as [|n IH]; [cbn; rewrite ln_1; ring|].
        cbn [pow]. rewrite ln_mult, IH, S_INR by (try apply pow_lt; assumption). ring. }
      rewrite Eln. ring.
    - intros r Hr. rewrite (HP r Hr), (HP' r Hr). f_equal. rewrite exact_scale, Esz.
      assert (Einv : (/ (c ^ n_mats m * size_ref m lv rv par d e b) = / c ^ n_mats m * / size_ref m lv rv par d e b)%R)
        by (field; lra).
      rewrite Einv, nof_mul.
      transitivity (smul (smul (nofR K (c ^ n_mats m)) (nofR K (/ c ^ n_mats m)))
        (smul (exact_entry m lv rv d e b r) (nofR K (/ size_ref m lv rv par d e b)))); [ring|].
      rewrite nofR_inv by lra. ring.
  Qed.

  (** C103: slim_eval_fun.  [v] is the product of the left boundary vector with all matrices of
      row b; the two outputs are the logarithm of its size and the amplitude over its size. *)
  Theorem C103_slim (x : tin K) (core bound : tensor K) (uniform : bool) (batch n d D : nat) :
    wf_input x batch n d -> shp core = (if uniform then [d; D; D] else [n; d; D; D]) -> shp bound = [2; D] ->
    0 < D -> 0 < n ->
    exists P L, slim_eval_fun K (tin_fin K x) (tfin K core) (tfin K bound) = Ok (P, L) /\
      shp P = [batch] /\ shp L = [batch] /\
      forall b, b < batch ->
        let v := vmul D (edge_at bound 0) (chain (row_mats core None uniform n d D x b)) in
        let S := (sum_over [D] (fun r => nabs K (v (nth 0 r 0%nat))) / INR D)%R in
        (exists j, j < D /\ v j <> s0) ->
        (0 < S)%R /\ get L [b] = XFin (ln S) /\
        get P [b] = Fin (smul (row_amp core bound None uniform n d D x b) (nofR K (/ S))) /\
        forall be : R, (forall j, j < D -> (nabs K (edge_at bound 1 j) <= be)%R) ->
          (nabs K (smul (row_amp core bound None uniform n d D x b) (nofR K (/ S))) <= INR D * be)%R.
  Proof.
    intros Hx Hc Hed HD Hn.
    destruct (slim_eval_ok K x core bound uniform batch n d D Hx Hc Hed HD Hn) as (P & L & E & HP & HL & H).
    exists P, L. split; [exact E|]. split; [exact HP|]. split; [exact HL|]. intros b Hb. cbv zeta.
    set (v := vmul D (edge_at bound 0) (chain (row_mats core None uniform n d D x b))).
    assert (Hfc : forall i j, i < D -> j < D ->
      chain (fchain K D n (site_mat K core uniform x d b)) i j = chain (fchain K D n (row_site K core None uniform d x b)) i j).
    { apply fchain_ext. intros t i' j' _ _ _. unfold row_site. cbn [bias_at]. ring. }
    assert (Hlp : forall j, j < D -> lprod K D n (fun i => get bound [0; i]) (site_mat K core uniform x d b) j = v j).
    { intros j Hj. unfold v. rewrite row_mats_fchain. unfold lprod, vmul. apply bsum_ext. intros i Hi. f_equal. apply Hfc; assumption. }
    intros (j0 & Hj0 & Hnz).
    change (sum_over [D] (fun r => nabs K (v (nth 0 r 0%nat)))) with (vabs K D v).
    assert (HDR : (0 < INR D)%R) by (apply lt_0_INR, HD).
    assert (Hvp : (0 < vabs K D v)%R).
    { apply (bsumR_pos D _ j0); [intros; apply nabs_pos|exact Hj0|]. apply nabs_pos_lt, Hnz. }
    assert (HS : (0 < vabs K D v / INR D)%R) by (apply Rdiv_lt_0_compat; assumption).
    split; [exact HS|].
    pose proof (slim_scale K x core bound uniform batch n d D P L b Hx Hc Hed HD Hn E Hb) as Hsc. cbv zeta in Hsc.
    assert (Ev : vabs K D (lprod K D n (fun i => get bound [0; i]) (site_mat K core uniform x d b)) = vabs K D v).
    { unfold vabs. apply (bsum_ext (S := R_ops)). intros j Hj. rewrite Hlp by exact Hj. reflexivity. }
    rewrite Ev in Hsc. rewrite Hsc by (exists j0; split; [exact Hj0|rewrite Hlp by exact Hj0; exact Hnz]).
    split; [reflexivity|]. set (S0 := (vabs K D v / INR D)%R) in *.
    destruct (H b Hb) as [[(s & c & Hs & Hcc & Hv)|[_ Hz]] _]; [|elim Hnz; rewrite <- Hlp by exact Hj0; apply Hz, Hj0].
    rewrite Hsc in Hs by (exists j0; split; [exact Hj0|rewrite Hlp by exact Hj0; exact Hnz]).
    injection Hs as <-. rewrite exp_ln in Hv by exact HS.
    assert (Hamp : row_amp core bound None uniform n d D x b = bsum D (fun j => smul (v j) (edge_at bound 1 j))).
    { rewrite row_amp_chain. transitivity (sandwich D D (fun i => get bound [0; i]) (chain (fchain K D n (site_mat K core uniform x d b))) (fun i => get bound [1; i])).
      - symmetry. apply sandwich_ext; [reflexivity|reflexivity|exact Hfc].
      - rewrite lprod_sandwich. apply bsum_ext. intros j Hj. rewrite Hlp by exact Hj. reflexivity. }
    assert (Hv2 : smul c (nofR K S0) = row_amp core bound None uniform n d D x b).
    { rewrite Hv, row_amp_chain. apply sandwich_ext; [reflexivity|reflexivity|exact Hfc]. }
    split.
    - rewrite Hcc. f_equal. rewrite <- Hv2.
      transitivity (smul c (smul (nofR K S0) (nofR K (/ S0)))); [rewrite nofR_inv by lra|]; ring.
    - intros be Hbe. rewrite nabs_mul, nabs_ofR_pos by exact HS. rewrite Hamp.
      assert (Hle : (nabs K (bsum D (fun j => smul (v j) (edge_at bound 1 j))) <= vabs K D v * be)%R).
      { eapply Rle_trans; [apply nabs_bsum|]. unfold vabs.
        change (bsum (S := R_ops) D (fun j => nabs K (smul (v j) (edge_at bound 1 j))) <=
          @smul R_cring (bsum (S := R_cring) D (fun j => nabs K (v j))) be)%R.
        rewrite <- (bsum_mul_r R_cring). apply bsumR_le. intros j Hj.
        change (nabs K (smul (v j) (edge_at bound 1 j)) <= nabs K (v j) * be)%R.
        rewrite nabs_mul. apply Rmult_le_compat_l; [apply nabs_pos|apply Hbe, Hj]. }
      apply Rle_trans with (vabs K D v * be * / S0)%R.
      + apply Rmult_le_compat_r; [left; apply Rinv_0_lt_compat, HS|exact Hle].
      + right. unfold S0. field. split; lra.
  Qed.
End P.

(** Non-vacuity: the batch of pairs of 2x2 matrices of C01_hyps_met with its boundary vectors, in
    both strategies; the outputs for batch element 1 are not NaN and are rescaled. *)
Example C103_hyps_met : forall par,
  seq_shape ex_mats 2 2 /\ vec_shape (Some ex_left) 2 /\ vec_shape (Some ex_right) 2 /\
  is_broadcast (vec_batches (Some ex_left) ++ vec_batches (Some ex_right) ++ seq_batches ex_mats) [2] /\
  valid [2] [1] /\ rescaled ex_mats (Some ex_left) (Some ex_right) par = true /\
  parallel ex_mats (Some ex_left) (Some ex_right) par = par /\
  ~ nan_case (K := R_num) ex_mats (Some ex_left) (Some ex_right) par 2 2 [1].
Proof.
  intros par. destruct C01_hyps_met as (H1 & H2 & H3 & H4 & H5 & H6).
  split; [exact H1|]. split; [exact H2|]. split; [exact H3|]. split; [exact H4|]. split; [exact H5|].
  split; [destruct par; reflexivity|]. split; [destruct par; reflexivity|].
  intros Hn. apply H6. destruct par.
  - destruct Hn as [_ Hz]. unfold exact_entry. cbv zeta. unfold sandwich.
    apply (bsum_zero R_cring). intros i Hi. apply (bsum_zero R_cring). intros j Hj. rewrite Hz by assumption. cbn. ring.
  - destruct Hn as [_ Hz]. apply Hz. constructor.
Qed.
(** without boundary vectors: the parallel strategy is used even when it is not requested *)
Example C103_no_vectors_met :
  seq_shape ex_mats 2 2 /\ rescaled ex_mats None None false = true /\ parallel ex_mats None None false = true /\
  ~ nan_case (K := R_num) ex_mats None None false 2 2 [1].
Proof.
  split; [exists [2], 2; split; [reflexivity|lia]|]. split; [reflexivity|]. split; [reflexivity|].
  intros [_ Hz]. specialize (Hz 0 0 ltac:(lia) ltac:(lia)). revert Hz.
  unfold ex_mats. cbn -[INR]. unfold mmul. cbn -[INR]. rewrite !INR_IZR_INZ. cbn. lra.
Qed.
(** an explicit value: with the boundary vectors (1) and (1) and the 1x1 matrices (10) and (-20),
    log_scale = ln 200 and contraction = -1, in both strategies *)
Example C103_value_met : forall par,
  size_ref R_num (TMany [mkT [1; 1] (fun _ => 10%R); mkT [1; 1] (fun _ => (-20)%R)])
    (Some one_vec) (Some one_vec) par 1 1 [] = 200%R.
Proof.
  intros par. unfold size_ref.
  replace (rescaled _ _ _ _) with true by (destruct par; reflexivity).
  destruct par.
  - replace (parallel _ _ _ _) with true by reflexivity. cbn. unfold mmul, delta. cbn. 
    unfold Rabs. destruct (Rcase_abs _); field_simplify; lra.
  - replace (parallel _ _ _ _) with false by reflexivity. cbn. unfold sandwich, mmul, delta. cbn.
    rewrite sqrt_1. unfold Rabs. destruct (Rcase_abs _); field_simplify; lra.
Qed.

Print Assumptions C103_split.
Print Assumptions C103_in_range.
Print Assumptions C103_scaling.
Print Assumptions C103_slim.
