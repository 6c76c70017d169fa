(** * SlimProofs: get_mat_slices and slim_eval_fun. *)
From Coq Require Import Ring_theory Ring Reals Lra.
From Verif Require Import Base Scalars Tensor Utils2 MpsBase Spec LinAlg Utils2Proofs EinsumProofs MatseqProofs.

Lemma rfold_app {A B} (f : B -> A -> res B) b l1 l2 :
  rfold f b (l1 ++ l2) = (let* c := rfold f b l1 in rfold f c l2).
Proof.
  revert b; induction l1 as [|x l1 IH]; intros b; [reflexivity|].
  simpl. destruct (f b x) as [c|e]; [apply IH|reflexivity].
Qed.

Section Slim.
  Variable K : numfield.
  Add Ring KrS : (rth K).
  Notation xt := (tensor (xnum K)).
  Notation xr := (tensor xreal).
  Notation XK := (xn_ops K).
  Notation matK := (mat K).
  Notation ofR := (nofR K).

  (** the chain f 0, ..., f (n-1) of D x D matrices, and its left partial product *)
  Definition fchain (D n : nat) (f : nat -> matK) : list (nat * matK) :=
    map (fun t => (D, f t)) (seq 0 n).
  Definition lprod (D n : nat) (v : vec K) (f : nat -> matK) : vec K :=
    vmul D v (chain (fchain D n f)).
  Lemma fchain_cols D n f : cols K D (fchain D n f) = D.
  Proof.
    unfold fchain. generalize 0 as a. induction n as [|n IH]; intros a; [reflexivity|].
    simpl. rewrite (cols_cons K). apply IH.
  Qed.
  Lemma lprod_0 D v f j : j < D -> lprod D 0 v f j = v j.
  Proof. intros Hj. unfold lprod, vmul. apply (bsum_delta_r K D j v Hj). Qed.
  Lemma lprod_S D n v f j : j < D ->
    lprod D (S n) v f j = bsum D (fun k => smul (lprod D n v f k) (f n k j)).
  Proof.
    intros Hj. unfold lprod, vmul, fchain. rewrite seq_S, map_app. cbn [map plus].
    transitivity (bsum D (fun i => smul (v i) (bsum D (fun k => smul (chain (fchain D n f) i k) (f n k j))))).
    - apply bsum_ext. intros i Hi. rewrite (chain_app K D) by exact Hi.
      fold (fchain D n f). rewrite fchain_cols. f_equal. unfold mmul. apply bsum_ext. intros k Hk.
      rewrite (chain_single K) by exact Hj. reflexivity.
    - transitivity (bsum D (fun i => bsum D (fun k => smul (smul (v i) (chain (fchain D n f) i k)) (f n k j)))).
      + apply bsum_ext. intros i Hi. rewrite <- bsum_mul_l. apply bsum_ext. intros; ring.
      + rewrite bsum_swap. apply bsum_ext. intros k Hk. rewrite bsum_mul_r. reflexivity.
  Qed.
  Lemma lprod_sandwich D n v f w :
    sandwich D D v (chain (fchain D n f)) w = bsum D (fun j => smul (lprod D n v f j) (w j)).
  Proof.
    unfold sandwich, lprod, vmul. rewrite bsum_swap. apply bsum_ext. intros j Hj.
    rewrite <- bsum_mul_r. apply bsum_ext. intros; ring.
  Qed.

  (** *** one step *)
  Definition vrow (P : xt) (b0 b D : nat) (C : vec K) : Prop :=
    forall j, j < D -> get P [bidx b0 b; 0; j] = Fin (C j).
  Definition vdich (P : xt) (L : xr) (b0 b D : nat) (u : vec K) : Prop :=
    (exists s C, get L [b] = XFin s /\ vrow P b0 b D C /\ forall j, j < D -> smul (C j) (ofR (exp s)) = u j) \/
    ((forall j, j < D -> get P [bidx b0 b; 0; j] = Bad) /\ forall j, j < D -> u j = s0).

  Lemma slim_step_ok (P M : xt) (L : xr) b0 batch D :
    b0 = batch \/ b0 = 1 -> 0 < D ->
    shp P = [b0; 1; D] -> shp L = [batch] -> shp M = [batch; D; D] ->
    exists P' L', slim_step K D (L, P) M = Ok (L', P') /\ shp P' = [batch; 1; D] /\ shp L' = [batch] /\
      forall b u MM, b < batch -> vdich P L b0 b D u ->
        (forall i j, i < D -> j < D -> get M [b; i; j] = Fin (MM i j)) ->
        vdich P' L' batch b D (fun j => bsum D (fun k => smul (u k) (MM k j))) /\
        ((forall j, j < D -> bsum D (fun k => smul (u k) (MM k j)) = s0) ->
           forall j, j < D -> get P' [b; 0; j] = Bad).
  Proof.
    intros Hb0 HD HP HL HM. unfold slim_step.
    destruct (matmul_spec (S := XK) P M [b0] [batch] [batch] 1 D D HP HM) as (Q & EQ & HQ & GQ).
    { unfold bcast. simpl. unfold bdim. destruct Hb0 as [->| ->]; [rewrite Nat.eqb_refl; reflexivity|].
      destruct (Nat.eqb_spec 1 batch); [subst; reflexivity|reflexivity]. }
    rewrite EQ. cbn [rbind].
    set (r := tdivc (sum1 (S := xr_ops) (tabs K Q)) (INR D)).
    assert (Hr : shp r = [batch] ++ [1; 1]).
    { change (shp r) with (droplast 1 (shp Q) ++ [1]). rewrite HQ. reflexivity. }
    assert (HlogS : shp (selE 0 (selE 0 (tlog r) 0) 0) = [batch]).
    { unfold selE, tlog, tmap. cbn [shp]. rewrite Hr. reflexivity. }
    destruct (tzip_same xadd L (selE 0 (selE 0 (tlog r) 0) 0) [batch] HL HlogS) as (L' & EL & HL' & GL).
    unfold tadd. rewrite EL. cbn [rbind].
    destruct (tzip_scale2 (xdivr K) Q r [batch] 1 D HQ Hr) as (P' & EP & HP' & GP).
    unfold tdivr. rewrite EP. cbn [rbind]. exists P', L'.
    split; [reflexivity|]. split; [exact HP'|]. split; [exact HL'|].
    intros b u MM Hb Hd HMM.
    assert (Hvb : valid [batch] [b]) by (apply valid_1; exact Hb).
    assert (GQ' : forall j, j < D -> get Q [b; 0; j] =
       bsum (S := XK) D (fun k => smul (s := XK) (get P [bidx b0 b; 0; k]) (Fin (MM k j)))).
    { intros j Hj. specialize (GQ [b] 0 j). cbn [app] in GQ. rewrite GQ.
      apply bsum_ext. intros k Hk. f_equal. rewrite bproj_self by exact Hvb. cbn [app]. apply HMM; assumption. }
    assert (GP' : forall j, j < D -> get P' [b; 0; j] = xdivr K (get Q [b; 0; j]) (get r [b; 0; 0])).
    { intros j Hj. apply (GP [b] 0 j Hvb); [lia|exact Hj]. }
    assert (GL' : get L' [b] = xadd (get L [b]) (xlog (get r [b; 0; 0]))).
    { rewrite GL by exact Hvb. reflexivity. }
    set (U := fun j => bsum D (fun k => smul (u k) (MM k j))).
    destruct Hd as [(s & C & Hs & HC & HX)|[Hbad Hz]].
    - set (CM := fun j => bsum D (fun k => smul (C k) (MM k j))).
      assert (HQC : forall j, j < D -> get Q [b; 0; j] = Fin (CM j)).
      { intros j Hj. rewrite GQ' by exact Hj. apply bsum_xfin. intros k Hk. rewrite HC by exact Hk. reflexivity. }
      assert (HU : forall j, j < D -> smul (CM j) (ofR (exp s)) = U j).
      { intros j Hj. unfold CM, U. rewrite <- bsum_mul_r. apply bsum_ext. intros k Hk.
        rewrite <- HX by exact Hk. ring. }
      set (a := bsum (S := R_ops) D (fun j => nabs K (CM j))).
      assert (Hrv : get r [b; 0; 0] = XFin (a / INR D)).
      { transitivity (xdivc (bsum (S := xr_ops) (dimE 0 (shp Q)) (fun j => xabs K (get Q [b; 0; j]))) (INR D));
          [reflexivity|]. rewrite HQ. change (dimE 0 ([batch] ++ [1; D])) with D.
        rewrite (bsum_xrfin D _ (fun j => nabs K (CM j))).
        - apply xdivc_fin. apply not_0_INR. lia.
        - intros j Hj. rewrite HQC by exact Hj. reflexivity. }
      assert (HDp : (0 < INR D)%R) by (apply lt_0_INR; exact HD).
      destruct (bounded_zero_dec K D CM) as [HzC|(j0 & Hj0 & Hn0)].
      + assert (Ha0 : a = 0%R).
        { unfold a. apply (bsum_zero R_cring). intros j Hj. rewrite HzC by exact Hj. apply nabs_s0. }
        assert (Hall : forall j, j < D -> get P' [b; 0; j] = Bad).
        { intros j Hj. rewrite GP', HQC, Hrv, Ha0 by exact Hj. unfold Rdiv. rewrite Rmult_0_l. simpl.
          destruct (Req_EM_T 0 0); [reflexivity|congruence]. }
        split; [|intros _; exact Hall]. right. split.
        * intros j Hj. rewrite (bidx_valid batch b) by exact Hb. apply Hall, Hj.
        * intros j Hj. fold (U j). rewrite <- HU by exact Hj. rewrite HzC by exact Hj. ring.
      + assert (Hap : (0 < a / INR D)%R).
        { unfold Rdiv. apply Rmult_lt_0_compat; [|apply Rinv_0_lt_compat, HDp].
          apply (bsumR_pos D _ j0); [intros; apply nabs_pos|exact Hj0|]. apply nabs_pos_lt, Hn0. }
        split.
        * left. exists (s + ln (a / INR D))%R, (fun j => smul (CM j) (ofR (/ (a / INR D)))).
          split; [rewrite GL', Hs, Hrv, xlog_pos by exact Hap; reflexivity|]. split.
          -- intros j Hj. rewrite (bidx_valid batch b), GP', HQC, Hrv by assumption.
             apply xdivr_pos, Hap.
          -- intros j Hj. fold (U j). rewrite <- HU by exact Hj.
             rewrite <- (ofR_exp_ln K s (a / INR D)) by exact Hap. ring.
        * intros Hzz. exfalso. apply Hn0.
          pose proof (HU j0 Hj0) as E. unfold U in E. rewrite Hzz in E by exact Hj0.
          assert (Hu : smul (ofR (exp s)) (ofR (/ exp s)) = s1)
            by (apply nofR_inv; pose proof (exp_pos s); lra).
          transitivity (smul (smul (CM j0) (ofR (exp s))) (ofR (/ exp s))).
          -- transitivity (smul (CM j0) (smul (ofR (exp s)) (ofR (/ exp s)))); [rewrite Hu|]; ring.
          -- rewrite E. ring.
    - assert (Hall : forall j, j < D -> get P' [b; 0; j] = Bad).
      { intros j Hj. rewrite GP' by exact Hj.
        assert (E : get Q [b; 0; j] = Bad).
        { rewrite GQ' by exact Hj. apply (bsum_xbad (S := K) D _ 0 HD). rewrite Hbad by exact HD. reflexivity. }
        rewrite E. reflexivity. }
      split; [|intros _; exact Hall]. right. split.
      + intros j Hj. rewrite (bidx_valid batch b) by exact Hb. apply Hall, Hj.
      + intros j Hj. apply bsum_zero. intros k Hk. rewrite Hz by exact Hk. ring.
  Qed.

  (** *** the loop *)
  Lemma slim_loop_ok batch D n (v : vec K) (P0 : xt) (step : nat -> res xt) (F : nat -> nat -> matK) :
    0 < D -> shp P0 = [1; 1; D] -> (forall j, j < D -> get P0 [0; 0; j] = Fin (v j)) ->
    (forall t, t < n -> exists M, step t = Ok M /\ shp M = [batch; D; D] /\
        forall b i j, b < batch -> i < D -> j < D -> get M [b; i; j] = Fin (F b t i j)) ->
    exists P L b0,
      rfold (fun st t => let* mats := step t in slim_step K D st mats)
            (tconst [batch] (XFin 0), P0) (seq 0 n) = Ok (L, P) /\
      (b0 = batch \/ (b0 = 1 /\ n = 0)) /\ shp P = [b0; 1; D] /\ shp L = [batch] /\
      forall b, b < batch -> vdich P L b0 b D (lprod D n v (F b)) /\
        (0 < n -> (forall j, j < D -> lprod D n v (F b) j = s0) -> forall j, j < D -> get P [b; 0; j] = Bad).
  Proof.
    intros HD HP0 Hv. induction n as [|n IH]; intros Hstep.
    - exists P0, (tconst [batch] (XFin 0)), 1. split; [reflexivity|]. split; [right; auto|].
      split; [exact HP0|]. split; [reflexivity|]. intros b Hb. split; [|lia]. left.
      exists 0%R, v. split; [reflexivity|]. split; [intros j Hj; apply Hv, Hj|].
      intros j Hj. rewrite lprod_0, exp_0, nof_1 by exact Hj. ring.
    - destruct IH as (P & L & b0 & E & Hb0 & HP & HL & H); [intros t Ht; apply Hstep; lia|].
      rewrite seq_S, rfold_app, E. cbn [rbind plus rfold].
      destruct (Hstep n ltac:(lia)) as (M & EM & HM & GM). rewrite EM. cbn [rbind].
      destruct (slim_step_ok P M L b0 batch D ltac:(tauto) HD HP HL HM) as (P' & L' & E' & HP' & HL' & H').
      rewrite E'. cbn [rbind]. exists P', L', batch. split; [reflexivity|]. split; [left; reflexivity|].
      split; [exact HP'|]. split; [exact HL'|]. intros b Hb. destruct (H b Hb) as [Hd _].
      destruct (H' b _ (F b n) Hb Hd) as [Hd' Hz'].
      { intros i j Hi Hj. apply GM; assumption. }
      split.
      + destruct Hd' as [(s & C & Hs & HC & HX)|[Hbad Hz]]; [left|right].
        * exists s, C. split; [exact Hs|]. split; [exact HC|]. intros j Hj.
          rewrite lprod_S by exact Hj. apply HX, Hj.
        * split; [exact Hbad|]. intros j Hj. rewrite lprod_S by exact Hj. apply Hz, Hj.
      + intros _ Hzz. apply Hz'. intros j Hj. rewrite <- Hzz with (j := j) by exact Hj.
        symmetry. apply lprod_S, Hj.
  Qed.

  Lemma tall_in_range d (ix : tensor Z) sh : shp ix = sh ->
    (forall i, valid sh i -> (0 <= get ix i < Z.of_nat d)%Z) -> tall (in_range d) ix = true.
  Proof.
    intros Hs H. apply tall_spec. rewrite Hs. intros i Hi. specialize (H i Hi).
    unfold in_range. apply andb_true_iff. split; [apply Z.leb_le; lia|apply Z.ltb_lt; lia].
  Qed.
  Lemma pyidx_nonneg d z : (0 <= z)%Z -> pyidx d z = Z.to_nat z.
  Proof. intros H. unfold pyidx. destruct (Z.ltb_spec z 0); [lia|reflexivity]. Qed.

  (** *** discrete or vector input, uniform or fixed-length core *)
  (** [inp]: what an input tensor means at batch b, site t: a function selecting from the
      slices G 0 .. G (d-1) of the core *)
  Definition slice_at (x : tin K) (d : nat) (G : nat -> K) (b t : nat) : K :=
    match x with
    | TLong ix => G (Z.to_nat (get ix [b; t]))
    | TFloat v => bsum d (fun k => smul (get v [b; t; k]) (G k))
    end.
  Definition input_ok (x : tin K) (batch n d : nat) : Prop :=
    match x with
    | TLong ix => shp ix = [batch; n] /\
        forall b t, b < batch -> t < n -> (0 <= get ix [b; t] < Z.of_nat d)%Z
    | TFloat v => shp v = [batch; n; d]
    end.
  Definition core_ok (core : tensor K) (uniform : bool) (n d D : nat) : Prop :=
    shp core = if uniform then [d; D; D] else [n; d; D; D].
  Definition core_at (core : tensor K) (uniform : bool) (t k i j : nat) : K :=
    if uniform then get core [k; i; j] else get core [t; k; i; j].
  Definition site_mat (core : tensor K) (uniform : bool) (x : tin K) (d b t : nat) : matK :=
    fun i j => slice_at x d (fun k => core_at core uniform t k i j) b t.

  Definition tin_fin' (x : tin K) : tin (xnum K) :=
    match x with TLong t => TLong t | TFloat t => TFloat (tmap Fin t) end.

  Lemma get_mat_slices_ok (x : tin K) (core : tensor K) uniform batch n d D :
    input_ok x batch n d -> core_ok core uniform n d D ->
    exists T, get_mat_slices K (tin_fin' x) (tmap Fin core) = Ok T /\ shp T = [batch; n; D; D] /\
      forall b t i j, b < batch -> t < n -> i < D -> j < D ->
        get T [b; t; i; j] = Fin (site_mat core uniform x d b t i j).
  Proof.
    intros Hx Hc. unfold get_mat_slices.
    assert (Hcd : ndim (tmap Fin core) = if uniform then 3 else 4).
    { unfold ndim. cbn [tmap shp]. rewrite Hc. destruct uniform; reflexivity. }
    assert (Hsh : tin_shp (tin_fin' x) = match x with TLong _ => [batch; n] | TFloat _ => [batch; n; d] end).
    { destruct x; cbn in *; [apply Hx|exact Hx]. }
    rewrite Hsh, Hcd. destruct x as [ix|v].
    - destruct Hx as [Hs Hr]. cbn [List.length Nat.eqb orb assert_ rbind tin_fin'].
      assert (Hrr : forall i, valid [batch; n] i -> (0 <= get ix i < Z.of_nat d)%Z).
      { intros i Hi. apply (valid_app2_inv []) in Hi as (b & p & q & -> & Hb & Hp & Hq).
        apply valid_nil in Hb. subst. apply Hr; assumption. }
      destruct uniform; cbn [Nat.eqb orb assert_ rbind].
      + unfold gather0. cbn [tmap shp]. rewrite Hc. cbn [hd tl].
        rewrite (tall_in_range d ix [batch; n] Hs Hrr). eexists. split; [reflexivity|].
        split; [cbn [shp]; rewrite Hs; reflexivity|]. intros b t i j Hb Ht Hi Hj. cbn [get].
        unfold ndim. rewrite Hs. cbn [List.length firstn skipn].
        rewrite pyidx_nonneg by (apply Hr; assumption). reflexivity.
      + unfold gather01. cbn [tmap shp]. rewrite Hc.
        assert (Hf : forallb (fun i => (nth 1 i 0 <? n) && in_range d (get ix i)) (all_idx (shp ix)) = true).
        { apply forallb_forall. intros i Hi. apply all_idx_spec in Hi. rewrite Hs in Hi.
          pose proof (Hrr i Hi) as Hri.
          apply (valid_app2_inv []) in Hi as (b & p & q & -> & Hb & Hp & Hq).
          apply valid_nil in Hb. subst. apply andb_true_iff. split; [apply Nat.ltb_lt; exact Hq|].
          unfold in_range. apply andb_true_iff. split; [apply Z.leb_le; lia|apply Z.ltb_lt; lia]. }
        rewrite Hf. eexists. split; [reflexivity|]. split; [cbn [shp]; rewrite Hs; reflexivity|].
        intros b t i j Hb Ht Hi Hj. cbn [get nth firstn skipn].
        rewrite pyidx_nonneg by (apply Hr; assumption). reflexivity.
    - cbn [List.length Nat.eqb orb assert_ rbind tin_fin']. cbn in Hx.
      destruct uniform; cbn [Nat.eqb orb assert_ rbind].
      + destruct (eins_bti_ide (S := XK) (tmap Fin v) (tmap Fin core) batch n d D D Hx Hc) as (T & E & HT & GT).
        exists T. split; [exact E|]. split; [exact HT|]. intros b t i j Hb Ht Hi Hj.
        rewrite GT by assumption. apply bsum_xfin. intros k Hk. reflexivity.
      + destruct (eins_bti_tide (S := XK) (tmap Fin v) (tmap Fin core) batch n d D D Hx Hc) as (T & E & HT & GT).
        exists T. split; [exact E|]. split; [exact HT|]. intros b t i j Hb Ht Hi Hj.
        rewrite GT by assumption. apply bsum_xfin. intros k Hk. reflexivity.
  Qed.

  Lemma slim_slice_ok (x : tin K) (core : tensor K) uniform batch n d D t :
    input_ok x batch n d -> core_ok core uniform n d D -> t < n ->
    exists M, slim_slice K (tin_sel0 K (tin_trans01 K (tin_fin' x)) t)
                (if uniform then tmap Fin core else sel0 (tmap Fin core) t)
                (match x with TLong _ => false | TFloat _ => true end) = Ok M /\
      shp M = [batch; D; D] /\
      forall b i j, b < batch -> i < D -> j < D ->
        get M [b; i; j] = Fin (site_mat core uniform x d b t i j).
  Proof.
    intros Hx Hc Ht.
    assert (Hcs : shp (if uniform then tmap Fin core else sel0 (tmap Fin core) t) = [d; D; D]).
    { destruct uniform; cbn [tmap sel0 shp]; rewrite Hc; reflexivity. }
    assert (Hcg : forall k i j, get (if uniform then tmap Fin core else sel0 (tmap Fin core) t) [k; i; j]
                   = Fin (core_at core uniform t k i j)) by (intros; destruct uniform; reflexivity).
    revert Hcs Hcg. generalize (if uniform then tmap Fin core else sel0 (tmap Fin core) t) as c. intros c Hcs Hcg.
    destruct x as [ix|v]; cbn [slim_slice tin_sel0 tin_trans01 tin_fin'].
    - destruct Hx as [Hs Hr]. unfold gather0. rewrite Hcs. cbn [hd tl].
      assert (Hs' : shp (sel0 (trans01 ix) t) = [batch]) by (cbn [sel0 trans01 shp]; rewrite Hs; reflexivity).
      rewrite (tall_in_range d _ [batch] Hs').
      2:{ intros i Hi. apply valid_cons in Hi as (b & r & -> & Hb & Hr'). apply valid_nil in Hr'. subst.
          cbn [sel0 trans01 get swap01]. apply Hr; assumption. }
      eexists. split; [reflexivity|]. split; [cbn [shp]; rewrite Hs'; reflexivity|].
      intros b i j Hb Hi Hj. cbn [get]. unfold ndim. rewrite Hs'. cbn [List.length firstn skipn].
      cbn [sel0 trans01 get swap01]. rewrite pyidx_nonneg by (apply Hr; assumption). apply Hcg.
    - cbn in Hx.
      assert (Hs' : shp (sel0 (trans01 (tmap (Fin (A := K)) v)) t) = [batch; d]) by (cbn [sel0 trans01 shp tmap]; rewrite Hx; reflexivity).
      destruct (eins_bi_ide (S := XK) (sel0 (trans01 (tmap Fin v)) t) c batch d D D Hs' Hcs) as (T & E & HT & GT).
      exists T. split; [exact E|]. split; [exact HT|]. intros b i j Hb Hi Hj.
      rewrite GT by assumption. apply bsum_xfin. intros k Hk. rewrite Hcg. reflexivity.
  Qed.

  Theorem slim_eval_ok (x : tin K) (core bound : tensor K) uniform batch n d D :
    input_ok x batch n d -> core_ok core uniform n d D -> shp bound = [2; D] -> 0 < D -> 0 < n ->
    exists P L, slim_eval_fun K (tin_fin' x) (tmap Fin core) (tmap Fin bound) = Ok (P, L) /\
      shp P = [batch] /\ shp L = [batch] /\
      forall b, b < batch ->
        let v := fun i => get bound [0; i] in let w := fun i => get bound [1; i] in
        let f := site_mat core uniform x d b in
        ((exists s c, get L [b] = XFin s /\ get P [b] = Fin c /\
            smul c (ofR (exp s)) = sandwich D D v (chain (fchain D n f)) w) \/
         (get P [b] = Bad /\ forall j, j < D -> lprod D n v f j = s0)) /\
        ((forall j, j < D -> lprod D n v f j = s0) -> get P [b] = Bad).
  Proof.
    intros Hx Hc Hbd HD Hn. unfold slim_eval_fun.
    assert (Hsh : tin_shp (tin_trans01 K (tin_fin' x)) = match x with TLong _ => [n; batch] | TFloat _ => [n; batch; d] end).
    { destruct x; cbn in *; [destruct Hx as [Hs _]; rewrite Hs|rewrite Hx]; reflexivity. }
    assert (Hl : List.length (tin_shp (tin_fin' x)) <? 2 = false).
    { destruct x; cbn in *; [destruct Hx as [Hs _]; rewrite Hs|rewrite Hx]; reflexivity. }
    rewrite Hl. cbv zeta. rewrite Hsh.
    assert (Hcd : ndim (tmap Fin core) = if uniform then 3 else 4).
    { unfold ndim. cbn [tmap shp]. rewrite Hc. destruct uniform; reflexivity. }
    assert (Hc0 : dimE 0 (shp (tmap Fin core)) = D).
    { cbn [tmap shp]. rewrite Hc. destruct uniform; reflexivity. }
    assert (Hc2 : dimE 2 (shp (tmap Fin core)) = d).
    { cbn [tmap shp]. rewrite Hc. destruct uniform; reflexivity. }
    assert (Hb2 : ndim (tmap Fin bound) = 2) by (unfold ndim; cbn [tmap shp]; rewrite Hbd; reflexivity).
    assert (Hbs : shp (tmap (Fin (A := K)) bound) = [2; D]) by exact Hbd.
    rewrite Hcd, Hc0, Hc2, Hb2, Hbs. change (dimE 0 [2; D]) with D. cbn [nth Nat.eqb assert_ rbind].
    rewrite Nat.eqb_refl.
    assert (E1 : nth 0 (match x with TLong _ => [n; batch] | TFloat _ => [n; batch; d] end) 0 = n) by (destruct x; reflexivity).
    assert (E2 : nth 1 (match x with TLong _ => [n; batch] | TFloat _ => [n; batch; d] end) 0 = batch) by (destruct x; reflexivity).
    rewrite E1, E2.
    assert (E3 : (List.length (match x with TLong _ => [n; batch] | TFloat _ => [n; batch; d] end) =? 2)
                 || (List.length (match x with TLong _ => [n; batch] | TFloat _ => [n; batch; d] end) =? 3) = true)
      by (destruct x; reflexivity).
    rewrite E3. cbn [assert_ rbind].
    assert (E4 : (if uniform then 3 else 4) =? 3 = uniform) by (destruct uniform; reflexivity).
    rewrite E4.
    assert (E5 : uniform || ((if uniform then 3 else 4) =? 4) = true) by (destruct uniform; reflexivity).
    rewrite E5. cbn [assert_ rbind].
    assert (E6 : (if uniform then Ok tt else assert_ (nth 0 (shp (tmap (Fin (A:=K)) core)) 0 =? n)) = Ok tt).
    { destruct uniform; [reflexivity|]. cbn [tmap shp]. rewrite Hc. cbn [nth]. rewrite Nat.eqb_refl. reflexivity. }
    rewrite E6. cbn [rbind].
    assert (E7 : (List.length (match x with TLong _ => [n; batch] | TFloat _ => [n; batch; d] end) =? 3)
                 = match x with TLong _ => false | TFloat _ => true end) by (destruct x; reflexivity).
    rewrite E7.
    assert (E8 : (if match x with TLong _ => false | TFloat _ => true end
                  then assert_ (dimE 0 (match x with TLong _ => [n; batch] | TFloat _ => [n; batch; d] end) =? d)
                  else Ok tt) = Ok tt).
    { destruct x; [reflexivity|]. change (dimE 0 [n; batch; d]) with d. rewrite Nat.eqb_refl. reflexivity. }
    rewrite E8. cbn [rbind].
    destruct (slim_loop_ok batch D n (fun i => get bound [0; i]) (unsq_front 2 (sel0 (tmap Fin bound) 0))
       (fun t => slim_slice K (tin_sel0 K (tin_trans01 K (tin_fin' x)) t)
                   (if uniform then tmap Fin core else sel0 (tmap Fin core) t)
                   (match x with TLong _ => false | TFloat _ => true end))
       (site_mat core uniform x d)) as (P & L & b0 & E & Hb0 & HP & HL & H).
    - exact HD.
    - cbn [unsq_front sel0 shp tmap]. rewrite Hbd. reflexivity.
    - intros j Hj. reflexivity.
    - intros t Ht. destruct (slim_slice_ok x core uniform batch n d D t Hx Hc Ht) as (M & EM & HM & GM).
      exists M. auto.
    - rewrite E. cbn [rbind].
      assert (b0 = batch) by (destruct Hb0 as [?|[_ ?]]; [assumption|lia]). subst b0.
      assert (Hsq : shp (squeezeE 1 P) = [] ++ [batch; D]).
      { unfold squeezeE. rewrite HP. reflexivity. }
      assert (Hun : shp (unsqE 0 (sel0 (tmap (Fin (A:=K)) bound) 1)) = [] ++ [D; 1]).
      { cbn [unsqE sel0 shp tmap]. rewrite Hbd. reflexivity. }
      destruct (matmul_same (S := XK) _ _ [] batch D 1 Hsq Hun) as (T & ET & HT & GT).
      rewrite ET. cbn [rbind]. cbn [app] in HT. rewrite HT, list_eqb_refl. cbn [assert_ rbind].
      exists (squeezeE 0 T), L. split; [reflexivity|].
      assert (HS0 : squeezeE 0 T = mkT [batch] (fun i => get T (droplast 0 i ++ [0] ++ lastn 0 i))).
      { unfold squeezeE. rewrite HT. reflexivity. }
      rewrite HS0. split; [reflexivity|]. split; [exact HL|]. intros b Hb. cbv zeta. cbn [get].
      change (droplast 0 [b] ++ [0] ++ lastn 0 [b]) with [b; 0].
      specialize (GT [] b 0 ltac:(constructor)). cbn [app] in GT.
      assert (Hsg : forall q, get (squeezeE 1 P) [b; q] = get P [b; 0; q]).
      { intros q. unfold squeezeE. rewrite HP. reflexivity. }
      destruct (H b Hb) as [Hd Hz]. split.
      + destruct Hd as [(s & C & Hs & HC & HX)|[Hbad Hzz]].
        * left. exists s, (bsum D (fun q => smul (C q) (get bound [1; q]))). split; [exact Hs|]. split.
          -- rewrite GT. apply bsum_xfin. intros q Hq. rewrite Hsg. specialize (HC q Hq).
             rewrite bidx_valid in HC by exact Hb. rewrite HC. reflexivity.
          -- rewrite lprod_sandwich, <- bsum_mul_r. apply bsum_ext. intros q Hq.
             rewrite <- HX by exact Hq. ring.
        * right. split; [|exact Hzz]. rewrite GT. apply (bsum_xbad (S := K) D _ 0 HD).
          rewrite Hsg. specialize (Hbad 0 HD). rewrite bidx_valid in Hbad by exact Hb. rewrite Hbad. reflexivity.
      + intros Hzz. rewrite GT. apply (bsum_xbad (S := K) D _ 0 HD). rewrite Hsg, (Hz Hn Hzz 0 HD). reflexivity.
  Qed.
End Slim.
