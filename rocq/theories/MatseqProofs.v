(** * MatseqProofs: contract_matseq computes the ordered product. *)
From Coq Require Import Ring_theory Ring Reals Lra Permutation.
From Verif Require Import Base Scalars Tensor Utils2 MpsBase Spec LinAlg Utils2Proofs.

Section Matseq.
  Variable K : numfield.
  Add Ring KrM : (rth K).
  Notation xt := (tensor (xnum K)).
  Notation xr := (tensor xreal).
  Notation XK := (xn_ops K).
  Notation matK := (mat K).
  Notation ofR := (nofR K).

  Definition finat (P : xt) (b : list nat) (m n : nat) (C : matK) : Prop :=
    forall i j, i < m -> j < n -> get P (b ++ [i; j]) = Fin (C i j).
  Definition rep (P : xt) (L : xr) (b : list nat) (m n : nat) (X : matK) : Prop :=
    exists s C, get L (b ++ [0; 0]) = XFin s /\ finat P b m n C /\
      forall i j, i < m -> j < n -> smul (C i j) (ofR (exp s)) = X i j.
  Definition nonzero (m n : nat) (X : matK) : Prop :=
    exists i j, i < m /\ j < n /\ X i j <> s0.

  (** all entries of the block are non-finite *)
  Definition allbad (P : xt) (b : list nat) (m n : nat) : Prop :=
    forall i j, i < m -> j < n -> get P (b ++ [i; j]) = Bad.
  Definition zeromat (m n : nat) (X : matK) : Prop := forall i j, i < m -> j < n -> X i j = s0.
  (** either an exact representation, or NaN everywhere and the exact value is zero *)
  Definition dich (P : xt) (L : xr) (b : list nat) (m n : nat) (X : matK) : Prop :=
    rep P L b m n X \/ (allbad P b m n /\ zeromat m n X).
  Lemma dich_ext P L b m n X Y : dich P L b m n X ->
    (forall i j, i < m -> j < n -> X i j = Y i j) -> dich P L b m n Y.
  Proof.
    intros [(s & C & Hs & HC & H)|[H1 H2]] HX.
    - left. exists s, C. split; [exact Hs|]. split; [exact HC|].
      intros i j Hi Hj. rewrite <- HX by assumption. apply H; assumption.
    - right. split; [exact H1|]. intros i j Hi Hj. rewrite <- HX by assumption. apply H2; assumption.
  Qed.
  Lemma dich_rep P L b m n X : dich P L b m n X -> nonzero m n X -> rep P L b m n X.
  Proof.
    intros [H|[_ H]] (i & j & Hi & Hj & Hn); [exact H|]. exfalso. apply Hn, H; assumption.
  Qed.
  Lemma zero_dec m n X : zeromat m n X \/ nonzero m n X.
  Proof. apply mat_zero_dec. Qed.

  (** the two outcomes, with the condition that selects them: NaN everywhere when [c]
      holds (then the exact value is zero), the exact value otherwise *)
  Definition exactly (c : Prop) (P : xt) (L : xr) (b : list nat) (m n : nat) (X : matK) : Prop :=
    (c -> allbad P b m n /\ zeromat m n X) /\ (~ c -> rep P L b m n X).
  Lemma exactly_dich (c : Prop) P L b m n X : c \/ ~ c -> exactly c P L b m n X -> dich P L b m n X.
  Proof. intros [H|H] [H1 H2]; [right; apply H1, H|left; apply H2, H]. Qed.
  Lemma exactly_iff (c c' : Prop) P L b m n X : (c <-> c') -> exactly c P L b m n X -> exactly c' P L b m n X.
  Proof. intros E [H1 H2]. split; intros H; [apply H1|apply H2]; tauto. Qed.

  Lemma rep_ext P L b m n X Y : rep P L b m n X ->
    (forall i j, i < m -> j < n -> X i j = Y i j) -> rep P L b m n Y.
  Proof.
    intros (s & C & Hs & HC & H) HX. exists s, C. split; [exact Hs|]. split; [exact HC|].
    intros i j Hi Hj. rewrite <- HX by assumption. apply H; assumption.
  Qed.
  Lemma nonzero_ext m n X Y : nonzero m n X -> (forall i j, i < m -> j < n -> X i j = Y i j) ->
    nonzero m n Y.
  Proof.
    intros (i & j & Hi & Hj & H) HX. exists i, j. rewrite <- HX by assumption. auto.
  Qed.

  (** *** the sum of absolute values *)
  Definition abssum (m n : nat) (C : matK) : R :=
    bsum (S := R_ops) m (fun i => bsum (S := R_ops) n (fun j => nabs K (C i j))).
  Lemma abssum_pos m n C : nonzero m n C -> (0 < abssum m n C)%R.
  Proof.
    intros (i & j & Hi & Hj & H). unfold abssum.
    apply (bsumR_pos m _ i); [|exact Hi|].
    - intros k Hk. apply bsumR_nonneg. intros; apply nabs_pos.
    - apply (bsumR_pos n _ j); [|exact Hj|].
      + intros; apply nabs_pos.
      + apply nabs_pos_lt. exact H.
  Qed.
  Lemma sum2_abs (P : xt) B b m n C : shp P = B ++ [m; n] -> List.length b = List.length B ->
    finat P b m n C ->
    get (A := xreal) (sum2 (S := xr_ops) (tabs K P)) (b ++ [0; 0]) = XFin (abssum m n C).
  Proof.
    intros Hs Hb HC. unfold sum2. cbn [get shp tabs tmap]. rewrite Hs, dimE_2_0, dimE_2_1.
    rewrite (droplast_app b [0; 0] 2 eq_refl). unfold abssum.
    apply bsum_xrfin. intros i Hi. apply bsum_xrfin. intros j Hj.
    rewrite HC by assumption. reflexivity.
  Qed.
  Lemma sum2_shp {S : sops} (P : tensor S) B m n : shp P = B ++ [m; n] ->
    shp (sum2 P) = B ++ [1; 1].
  Proof. intros Hs. unfold sum2; cbn [shp]. rewrite Hs, (droplast_app B [m; n] 2 eq_refl). reflexivity. Qed.

  (** division of an entry by a positive real register *)
  Lemma xdivr_pos (z : K) r : (0 < r)%R -> xdivr K (Fin z) (XFin r) = Fin (smul z (ofR (/ r))).
  Proof. intros H. simpl. destruct (Req_EM_T r 0); [lra|reflexivity]. Qed.
  Lemma ofR_exp_ln s r : (0 < r)%R -> smul (ofR (/ r)) (ofR (exp (s + ln r))) = ofR (exp s).
  Proof.
    intros H. rewrite <- nof_mul, exp_plus, exp_ln by exact H. f_equal. field. lra.
  Qed.

  (** *** rescaling: mps_base.py:327-330 *)
  Lemma rescale_ok (P : xt) (L : xr) B m n target :
    shp P = B ++ [m; n] -> shp L = B ++ [1; 1] ->
    (0 < m -> 0 < n -> (0 < target)%R) ->
    let r := tdivc (sum2 (S := xr_ops) (tabs K P)) target in
    exists L' P', tadd L (tlog r) = Ok L' /\ tdivr K P r = Ok P' /\
      shp P' = B ++ [m; n] /\ shp L' = B ++ [1; 1] /\
      (forall b X, valid B b -> rep P L b m n X -> nonzero m n X -> rep P' L' b m n X) /\
      (forall b X, valid B b -> rep P L b m n X -> zeromat m n X -> allbad P' b m n) /\
      (forall b, valid B b -> allbad P b m n -> allbad P' b m n).
  Proof.
    intros HP HL Ht r.
    assert (Hr : shp r = B ++ [1; 1]).
    { unfold r, tdivc. cbn [tmap shp]. apply (sum2_shp (S := xr_ops) _ B m n). exact HP. }
    destruct (tzip_same xadd L (tlog r) (B ++ [1; 1]) HL Hr) as (L' & EL & HL' & GL).
    destruct (tzip_scale2 (xdivr K) P r B m n HP Hr) as (P' & EP & HP' & GP).
    exists L', P'. split; [exact EL|]. split; [exact EP|]. split; [exact HP'|]. split; [exact HL'|].
    split; [|split; [|intros b Hb Hbad i j Hi Hj; rewrite GP, Hbad by assumption; reflexivity]];
      [intros b X Hb (s & C & Hs & HC & HX) Hnz|].
    2:{ intros b X Hb (s & C & Hs & HC & HX) Hz i j Hi Hj.
        assert (Hm : 0 < m) by lia. assert (Hn : 0 < n) by lia. specialize (Ht Hm Hn).
        assert (HzC : zeromat m n C).
        { intros p q Hp Hq. pose proof (HX p q Hp Hq) as E. rewrite (Hz p q Hp Hq) in E.
          transitivity (smul (smul (C p q) (ofR (exp s))) (ofR (/ exp s))).
          - assert (Hu : smul (ofR (exp s)) (ofR (/ exp s)) = s1)
              by (apply nofR_inv; pose proof (exp_pos s); lra).
            transitivity (smul (C p q) (smul (ofR (exp s)) (ofR (/ exp s)))); [rewrite Hu|]; ring.
          - rewrite E. ring. }
        rewrite GP by assumption. rewrite HC by assumption.
        assert (Hlen : List.length b = List.length B) by (apply valid_length; exact Hb).
        assert (Hrv : get r (b ++ [0; 0]) = XFin 0).
        { unfold r, tdivc. cbn [tmap get]. rewrite (sum2_abs P B b m n C) by assumption.
          rewrite xdivc_fin by lra. f_equal.
          assert (E0 : abssum m n C = 0%R).
          { unfold abssum. apply (bsum_zero R_cring). intros p Hp. apply (bsum_zero R_cring).
            intros q Hq. rewrite HzC by assumption. apply nabs_s0. }
          rewrite E0. unfold Rdiv. ring. }
        rewrite Hrv. simpl. destruct (Req_EM_T 0 0); [reflexivity|congruence]. }
    assert (HnzC : nonzero m n C).
    { destruct Hnz as (i & j & Hi & Hj & H). exists i, j. repeat split; try assumption.
      rewrite <- HX in H by assumption. apply nonzero_inv_l in H. exact H. }
    assert (Hm : 0 < m) by (destruct Hnz as (i & j & ? & ? & ?); lia).
    assert (Hn : 0 < n) by (destruct Hnz as (i & j & ? & ? & ?); lia).
    specialize (Ht Hm Hn). pose proof (abssum_pos m n C HnzC) as Hpos.
    assert (Hlen : List.length b = List.length B) by (apply valid_length; exact Hb).
    assert (Hrv : get r (b ++ [0; 0]) = XFin (abssum m n C / target)).
    { unfold r, tdivc. cbn [tmap get]. rewrite (sum2_abs P B b m n C) by assumption.
      apply xdivc_fin. lra. }
    assert (Hrp : (0 < abssum m n C / target)%R).
    { unfold Rdiv. apply Rmult_lt_0_compat; [exact Hpos|]. apply Rinv_0_lt_compat, Ht. }
    exists (s + ln (abssum m n C / target))%R,
           (fun i j => smul (C i j) (ofR (/ (abssum m n C / target)))).
    split; [|split].
    - rewrite GL by (apply valid_app; [exact Hb|apply valid_2; lia]).
      rewrite Hs. unfold tlog. cbn [tmap get]. rewrite Hrv, xlog_pos by exact Hrp. reflexivity.
    - intros i j Hi Hj. rewrite GP by assumption. rewrite Hrv, HC by assumption.
      apply xdivr_pos. exact Hrp.
    - intros i j Hi Hj. rewrite <- HX by assumption.
      rewrite <- (ofR_exp_ln s (abssum m n C / target)) by exact Hrp. ring.
  Qed.

  (** *** a product without rescaling *)
  Lemma rep_matmul_r (P M : xt) (L : xr) B m k n :
    shp P = B ++ [m; k] -> shp M = B ++ [k; n] ->
    exists P', matmul (S := XK) P M = Ok P' /\ shp P' = B ++ [m; n] /\
      forall b X MM, valid B b -> rep P L b m k X -> finat M b k n MM ->
        rep P' L b m n (mmul k X MM).
  Proof.
    intros HP HM. destruct (matmul_same (S := XK) P M B m k n HP HM) as (P' & E & HP' & G).
    exists P'. split; [exact E|]. split; [exact HP'|].
    intros b X MM Hb (s & C & Hs & HC & HX) HMM.
    exists s, (mmul k C MM). split; [exact Hs|]. split.
    - intros i j Hi Hj. rewrite G by exact Hb. apply bsum_xfin. intros q Hq.
      rewrite HC, HMM by assumption. reflexivity.
    - intros i j Hi Hj. unfold mmul. rewrite <- bsum_mul_r. apply bsum_ext. intros q Hq.
      rewrite <- HX by assumption. ring.
  Qed.
  Lemma rep_matmul_l (P M : xt) (L : xr) B m k n :
    shp M = B ++ [m; k] -> shp P = B ++ [k; n] ->
    exists P', matmul (S := XK) M P = Ok P' /\ shp P' = B ++ [m; n] /\
      forall b X MM, valid B b -> rep P L b k n X -> finat M b m k MM ->
        rep P' L b m n (mmul k MM X).
  Proof.
    intros HM HP. destruct (matmul_same (S := XK) M P B m k n HM HP) as (P' & E & HP' & G).
    exists P'. split; [exact E|]. split; [exact HP'|].
    intros b X MM Hb (s & C & Hs & HC & HX) HMM.
    exists s, (mmul k MM C). split; [exact Hs|]. split.
    - intros i j Hi Hj. rewrite G by exact Hb. apply bsum_xfin. intros q Hq.
      rewrite HC, HMM by assumption. reflexivity.
    - intros i j Hi Hj. unfold mmul. rewrite <- bsum_mul_r. apply bsum_ext. intros q Hq.
      rewrite <- HX by assumption. ring.
  Qed.

  (** *** mat_reduce_seq *)
  Lemma seq_step_ok (P M : xt) (L : xr) B m k n :
    shp P = B ++ [m; k] -> shp L = B ++ [1; 1] -> shp M = B ++ [k; n] ->
    exists P' L', seq_step K (P, L) M = Ok (P', L') /\
      shp P' = B ++ [m; n] /\ shp L' = B ++ [1; 1] /\
      forall b X MM, valid B b -> 0 < m -> dich P L b m k X -> finat M b k n MM ->
        dich P' L' b m n (mmul k X MM) /\ (zeromat m n (mmul k X MM) -> allbad P' b m n).
  Proof.
    intros HP HL HM. destruct (rep_matmul_r P M L B m k n HP HM) as (Q & E & HQ & HR).
    unfold seq_step. rewrite E. cbn [rbind]. rewrite HQ, dimE_2_0, dimE_2_1.
    destruct (rescale_ok Q L B m n (sqrt (INR (m * n))) HQ HL) as (L' & P' & EL & EP & HP' & HL' & H & Hz & Hbad).
    { intros Hm Hn. apply sqrt_lt_R0. apply lt_0_INR. nia. }
    cbv zeta in EL, EP. rewrite EL. cbn [rbind]. rewrite EP. cbn [rbind].
    exists P', L'. split; [reflexivity|]. split; [exact HP'|]. split; [exact HL'|].
    intros b X MM Hb Hm [HX|[HX HXz]] HMM.
    - pose proof (HR b X MM Hb HX HMM) as HQr. split; [|intros Hzz; apply (Hz b _ Hb HQr Hzz)].
      destruct (zero_dec m n (mmul k X MM)) as [Hzz|Hnz].
      + right. split; [apply (Hz b _ Hb HQr Hzz)|exact Hzz].
      + left. apply H; assumption.
    - assert (Hzz : zeromat m n (mmul k X MM)).
      { intros i j Hi Hj. unfold mmul. apply bsum_zero. intros q Hq. rewrite HXz by assumption. ring. }
      assert (Hall : allbad P' b m n); [|split; [right; split; assumption|intros; exact Hall]].
      destruct k as [|k].
      + (* an empty inner dimension: the product is an exact zero *)
        intros i j Hi Hj.
        destruct (matmul_same (S := XK) P M B m 0 n HP HM) as (Q' & E' & _ & G).
        rewrite E in E'. injection E' as <-.
        assert (HQ0 : rep Q (tconst (B ++ [1; 1]) (XFin 0)) b m n (fun _ _ => s0)).
        { exists 0%R, (fun _ _ => s0). split; [reflexivity|]. split.
          - intros p q Hp Hq. rewrite G by exact Hb. reflexivity.
          - intros. ring. }
        destruct (rescale_ok Q (tconst (B ++ [1; 1]) (XFin 0)) B m n (sqrt (INR (m * n))) HQ eq_refl)
          as (L2 & P2 & EL2 & EP2 & _ & _ & _ & Hz2 & _).
        { intros Hm' Hn. apply sqrt_lt_R0. apply lt_0_INR. nia. }
        cbv zeta in EP2. rewrite EP in EP2. injection EP2 as <-.
        apply (Hz2 b _ Hb HQ0); try assumption.
      + apply Hbad; [exact Hb|]. intros i j Hi Hj.
        destruct (matmul_same (S := XK) P M B m (S k) n HP HM) as (Q' & E' & _ & G).
        rewrite E in E'. injection E' as <-. rewrite G by exact Hb.
        apply (bsum_xbad (S := K) (S k) _ 0); [lia|]. rewrite HX by lia. reflexivity.
  Qed.

  Definition fval (z : xnum K) : K := match z with Fin a => a | Bad => s0 end.
  Definition ment (b : list nat) (t : xt) : matK := fun i j => fval (get t (b ++ [i; j])).
  Definition chain_at (b : list nat) (ts : list xt) : list (nat * matK) :=
    map (fun t => (dimE 0 (shp t), ment b t)) ts.
  (** [mats B d ts e]: a chain of tensors with batch shape [B] and matrix shapes
      d x ., . x ., ..., . x e *)
  Inductive mats (B : list nat) : nat -> list xt -> nat -> Prop :=
  | mats_nil d : mats B d [] d
  | mats_cons d n e t ts : shp t = B ++ [d; n] -> mats B n ts e -> mats B d (t :: ts) e.
  Definition tfinite (t : xt) : Prop := forall i, valid (shp t) i -> exists a, get t i = Fin a.

  Lemma finat_ment B t d n b : shp t = B ++ [d; n] -> valid B b -> tfinite t ->
    finat t b d n (ment b t).
  Proof.
    intros Hs Hb Hf i j Hi Hj. unfold ment.
    destruct (Hf (b ++ [i; j])) as [a Ha].
    - rewrite Hs. apply valid_app; [exact Hb|apply valid_2; auto].
    - rewrite Ha. reflexivity.
  Qed.
  Lemma chain_at_cons b t ts : chain_at b (t :: ts) = (dimE 0 (shp t), ment b t) :: chain_at b ts.
  Proof. reflexivity. Qed.
  Lemma cols_chain_at B d ts e b : mats B d ts e -> cols K d (chain_at b ts) = e.
  Proof.
    induction 1 as [d|d n e t ts Hs H IH]; [reflexivity|].
    rewrite chain_at_cons, (cols_cons K), Hs, dimE_2_0. exact IH.
  Qed.

  Lemma rfold_seq_ok B : forall rest k e, mats B k rest e ->
    forall (P : xt) (L : xr) m, shp P = B ++ [m; k] -> shp L = B ++ [1; 1] ->
    Forall tfinite rest ->
    exists P' L', rfold (seq_step K) (P, L) rest = Ok (P', L') /\
      shp P' = B ++ [m; e] /\ shp L' = B ++ [1; 1] /\
      forall b X, valid B b -> 0 < m -> dich P L b m k X ->
        dich P' L' b m e (chain ((k, X) :: chain_at b rest)) /\
        (rest <> [] -> zeromat m e (chain ((k, X) :: chain_at b rest)) -> allbad P' b m e).
  Proof.
    induction rest as [|t rest IH]; intros k e Hm P L m HP HL Hf; inversion Hm; subst.
    - exists P, L. split; [reflexivity|]. split; [exact HP|]. split; [exact HL|]. intros b X Hb Hm0 HX. split; [|intros Hne; elim Hne; reflexivity].
      apply (dich_ext _ _ _ _ _ X); [exact HX|]. intros i j Hi Hj. symmetry.
      apply chain_single. exact Hj.
    - inversion Hf as [|? ? Hft Hfr]; subst.
      destruct (seq_step_ok P t L B m k n HP HL) as (P1 & L1 & E & HP1 & HL1 & H1); [assumption|].
      destruct (IH n e) with (P := P1) (L := L1) (m := m) as (P' & L' & E' & HP' & HL' & H');
        try assumption.
      cbn [rfold]. rewrite E. cbn [rbind]. exists P', L'. split; [exact E'|].
      split; [exact HP'|]. split; [exact HL'|].
      intros b X Hb Hm0 HX.
      assert (Heq : forall i j, chain ((k, X) :: chain_at b (t :: rest)) i j
                = chain ((n, mmul k X (ment b t)) :: chain_at b rest) i j).
      { intros i j. rewrite chain_at_cons, H2, dimE_2_0. apply chain_absorb. }
      destruct (H1 b X (ment b t) Hb Hm0 HX) as [Hd1 Hz1]; [apply (finat_ment B); assumption|].
      destruct (H' b _ Hb Hm0 Hd1) as [Hd2 Hz2]. split.
      + apply (dich_ext _ _ _ _ _ (chain ((n, mmul k X (ment b t)) :: chain_at b rest)));
          [exact Hd2|intros; symmetry; apply Heq].
      + intros _ Hz. destruct rest as [|t' rest].
        * simpl in E'. injection E' as -> ->. inversion H4; subst. apply Hz1.
          intros i j Hi Hj. rewrite <- (Hz i j Hi Hj), Heq. symmetry. apply chain_single. exact Hj.
        * apply Hz2; [discriminate|]. intros i j Hi Hj. rewrite <- Heq. apply Hz; assumption.
  Qed.

  (** transposed and reversed chains *)
  Lemma transE_shp {A} (t : tensor A) B d n : shp t = B ++ [d; n] -> shp (transE t) = B ++ [n; d].
  Proof.
    intros Hs. unfold transE. cbn [shp]. rewrite Hs, (droplast_app B [d; n] 2 eq_refl),
      (lastn_app B [d; n] 2 eq_refl). reflexivity.
  Qed.
  Lemma transE_get {A} (t : tensor A) b i j : get (transE t) (b ++ [i; j]) = get t (b ++ [j; i]).
  Proof.
    unfold transE. cbn [get]. rewrite (droplast_app b [i; j] 2 eq_refl),
      (lastn_app b [i; j] 2 eq_refl). reflexivity.
  Qed.
  Lemma tfinite_trans t B d n : shp t = B ++ [d; n] -> tfinite t -> tfinite (transE t).
  Proof.
    intros Hs Hf i Hi. rewrite (transE_shp t B d n Hs) in Hi.
    apply valid_app2_inv in Hi as (b & p & q & -> & Hb & Hp & Hq). rewrite transE_get.
    apply Hf. rewrite Hs. apply valid_app; [exact Hb|apply valid_2; auto].
  Qed.
  Lemma mats_snoc B d ts e t n : mats B d ts e -> shp t = B ++ [e; n] -> mats B d (ts ++ [t]) n.
  Proof.
    induction 1 as [d|d n' e t' ts Hs H IH]; intros Ht.
    - apply (mats_cons _ _ n); [exact Ht|constructor].
    - simpl. apply (mats_cons _ _ n'); [exact Hs|]. apply IH, Ht.
  Qed.
  Lemma mats_app B d ts e ts' f : mats B d ts e -> mats B e ts' f -> mats B d (ts ++ ts') f.
  Proof.
    induction 1 as [d|d n' e t' ts Hs H IH]; intros Ht; [exact Ht|].
    simpl. apply (mats_cons _ _ n'); [exact Hs|]. apply IH, Ht.
  Qed.
  Lemma mats_rev B d ts e : mats B d ts e -> mats B e (map transE (rev ts)) d.
  Proof.
    induction 1 as [d|d n e t ts Hs H IH]; [constructor|].
    simpl. rewrite map_app. simpl. apply (mats_snoc _ _ _ n); [exact IH|].
    apply transE_shp, Hs.
  Qed.
  Lemma chain_eq_app m (a b a' b' : list (nat * matK)) :
    chain_eq K m a b -> chain_eq K (cols K m a) a' b' -> chain_eq K m (a ++ a') (b ++ b').
  Proof.
    revert m b; induction a as [|[n M] a IH]; intros m [|[n' M'] b] H H'; simpl in H;
      try contradiction.
    - exact H'.
    - destruct H as (-> & HM & Hab). rewrite (cols_cons K) in H'. simpl.
      split; [reflexivity|]. split; [exact HM|]. apply IH; assumption.
  Qed.
  Lemma chain_at_rev B d ts e b : mats B d ts e ->
    chain_eq K e (chain_at b (map transE (rev ts))) (rev_chain K d (chain_at b ts) []).
  Proof.
    induction 1 as [d|d n e t ts Hs H IH]; [exact I|].
    simpl rev. rewrite map_app, chain_at_cons. unfold chain_at at 1. rewrite map_app.
    fold (chain_at b (map transE (rev ts))). simpl rev_chain. rewrite (rev_chain_acc K).
    rewrite Hs, dimE_2_0. apply chain_eq_app; [exact IH|].
    cbn [map chain_eq]. rewrite (transE_shp t B d n Hs), dimE_2_0. split; [reflexivity|].
    split; [|exact I]. intros i k Hi Hk. unfold mtrans, ment. rewrite transE_get. reflexivity.
  Qed.

  Lemma rep_init (P : xt) B d n b : shp P = B ++ [d; n] -> valid B b -> tfinite P ->
    rep P (tconst (B ++ [1; 1]) (XFin 0)) b d n (ment b P).
  Proof.
    intros HP Hb Hf. exists 0%R, (ment b P). split; [reflexivity|].
    split; [apply (finat_ment B); assumption|]. intros i j _ _. rewrite exp_0, nof_1. ring.
  Qed.
  Lemma last_mats_dim B d ts e t0 : mats B d ts e -> ts <> [] -> dimE 0 (shp (last ts t0)) = e.
  Proof.
    induction 1 as [d|d n e t ts Hs H IH]; intros Hne; [contradiction|].
    destruct ts as [|t' ts].
    - inversion H; subst. simpl. rewrite Hs, dimE_2_0. reflexivity.
    - apply IH. discriminate.
  Qed.

  Lemma mat_reduce_seq_fwd B d p rest e : mats B d (p :: rest) e -> Forall tfinite (p :: rest) ->
    exists P L, rfold (seq_step K) (p, tconst (droplast 2 (shp p) ++ [1; 1]) (XFin 0)) rest = Ok (P, L) /\
      shp P = B ++ [d; e] /\ shp L = B ++ [1; 1] /\
      forall b, valid B b -> 0 < d -> dich P L b d e (chain (chain_at b (p :: rest))) /\
        (rest <> [] -> zeromat d e (chain (chain_at b (p :: rest))) -> allbad P b d e) /\
        (rest = [] -> rep P L b d e (chain (chain_at b (p :: rest)))).
  Proof.
    intros Hm Hf. inversion Hm as [|? n ? ? ? Hs Hr]; subst.
    inversion Hf as [|? ? Hfp Hfr]; subst.
    rewrite Hs, (droplast_app B [d; n] 2 eq_refl).
    destruct (rfold_seq_ok B rest n e Hr p (tconst (B ++ [1; 1]) (XFin 0)) d Hs eq_refl Hfr)
      as (P & L & E & HP & HL & H).
    exists P, L. split; [exact E|]. split; [exact HP|]. split; [exact HL|].
    intros b Hb Hd. rewrite chain_at_cons, Hs, dimE_2_0 in *.
    assert (Hri : rep p (tconst (B ++ [1; 1]) (XFin 0)) b d n (ment b p)) by (apply (rep_init p B d n); assumption).
    destruct (H b (ment b p) Hb Hd) as [H1 H2]; [left; exact Hri|]. split; [exact H1|]. split; [exact H2|].
    intros ->. cbn [rfold] in E. injection E as <- <-. inversion Hr; subst.
    apply (rep_ext _ _ _ _ _ (ment b p)); [exact Hri|].
    intros i j Hi Hj. symmetry. apply chain_single. exact Hj.
  Qed.
  Lemma rep_trans P L b m n X : rep P L b m n X -> rep (transE P) L b n m (mtrans K X).
  Proof.
    intros (s & C & Hs & HC & HX). exists s, (mtrans K C). split; [exact Hs|]. split.
    - intros i j Hi Hj. rewrite transE_get. apply HC; assumption.
    - intros i j Hi Hj. apply HX; assumption.
  Qed.
  Lemma Forall_tfinite_rev B d ts e : mats B d ts e -> Forall tfinite ts ->
    Forall tfinite (map transE (rev ts)).
  Proof.
    induction 1 as [d|d n e t ts Hs H IH]; intros Hf; [constructor|].
    inversion Hf; subst. simpl. rewrite map_app. apply Forall_app. split; [apply IH; assumption|].
    constructor; [|constructor]. apply (tfinite_trans t B d n); assumption.
  Qed.

  Lemma mat_reduce_seq_ok B d ts e : mats B d ts e -> ts <> [] -> Forall tfinite ts ->
    exists P L, mat_reduce_seq K ts = Ok (P, L) /\
      shp P = B ++ [d; e] /\ shp L = B ++ [1; 1] /\
      forall b, valid B b -> 0 < d -> 0 < e -> dich P L b d e (chain (chain_at b ts)) /\
        (2 <= List.length ts -> zeromat d e (chain (chain_at b ts)) -> allbad P b d e) /\
        (List.length ts = 1 -> rep P L b d e (chain (chain_at b ts))).
  Proof.
    intros Hm Hne Hf. destruct ts as [|p rest]; [contradiction|]. clear Hne.
    unfold mat_reduce_seq. cbv zeta.
    destruct (dimE 0 (shp (last (p :: rest) p)) <? dimE 1 (shp p)).
    - pose proof (mats_rev _ _ _ _ Hm) as Hm'.
      pose proof (Forall_tfinite_rev _ _ _ _ Hm Hf) as Hf'.
      destruct (map transE (rev (p :: rest))) as [|q rest'] eqn:E.
      { simpl in E. rewrite map_app in E. destruct (map transE (rev rest)); discriminate. }
      destruct (mat_reduce_seq_fwd B e q rest' d Hm' Hf') as (P & L & E' & HP & HL & H).
      rewrite E'. cbn [rbind]. exists (transE P), L. split; [reflexivity|].
      split; [apply transE_shp, HP|]. split; [exact HL|].
      intros b Hb Hd He.
      assert (Heq : forall i j, i < d -> j < e ->
         chain (chain_at b (p :: rest)) i j = chain (chain_at b (q :: rest')) j i).
      { intros i j Hi Hj. rewrite <- E.
        pose proof (chain_at_rev B d (p :: rest) e b Hm) as Hce.
        rewrite (chain_eq_chain K e _ _ j i Hce Hj).
        symmetry. apply (chain_rev K); [exact Hi|].
        rewrite (cols_chain_at B d (p :: rest) e b Hm). exact Hj. }
      destruct (H b Hb He) as (Hdi & Hz0 & Hone). split; [|split].
      + apply (dich_ext _ _ _ _ _ (mtrans K (chain (chain_at b (q :: rest'))))).
        * destruct Hdi as [Hr|[Hbd Hz]]; [left; apply rep_trans, Hr|right].
          split; [intros i j Hi Hj; rewrite transE_get; apply Hbd; assumption|].
          intros i j Hi Hj. unfold mtrans. apply Hz; assumption.
        * intros i j Hi Hj. symmetry. apply Heq; assumption.
      + intros Hl Hz i j Hi Hj. rewrite transE_get. apply Hz0; try assumption.
        * intros ->. apply (f_equal (@List.length _)) in E. rewrite map_length, rev_length in E.
          simpl in *. lia.
        * intros x y Hx Hy. rewrite <- Heq by assumption. apply Hz; assumption.
      + intros Hl. apply (rep_ext _ _ _ _ _ (mtrans K (chain (chain_at b (q :: rest'))))).
        * apply rep_trans, Hone. apply (f_equal (@List.length _)) in E. rewrite map_length, rev_length in E.
          simpl in *. destruct rest'; [reflexivity|]. simpl in E. lia.
        * intros i j Hi Hj. symmetry. apply Heq; assumption.
    - destruct (mat_reduce_seq_fwd B d p rest e Hm Hf) as (P & L & E' & HP & HL & H).
      rewrite E'. cbn [rbind]. exists P, L. split; [reflexivity|]. split; [exact HP|]. split; [exact HL|].
      intros b Hb Hd He. destruct (H b Hb Hd) as (H1 & H2 & H3). split; [exact H1|]. split.
      + intros Hl. apply H2. intros ->. simpl in Hl. lia.
      + intros Hl. apply H3. destruct rest; [reflexivity|]. simpl in Hl. lia.
  Qed.
  (** exact outcome: NaN exactly when there are at least two factors and the product is zero *)
  Lemma mat_reduce_seq_exact B d ts e : mats B d ts e -> ts <> [] -> Forall tfinite ts ->
    exists P L, mat_reduce_seq K ts = Ok (P, L) /\
      shp P = B ++ [d; e] /\ shp L = B ++ [1; 1] /\
      forall b, valid B b -> 0 < d -> 0 < e ->
        exactly (2 <= List.length ts /\ zeromat d e (chain (chain_at b ts))) P L b d e (chain (chain_at b ts)).
  Proof.
    intros Hm Hne Hf. destruct (mat_reduce_seq_ok B d ts e Hm Hne Hf) as (P & L & E & HP & HL & H).
    exists P, L. split; [exact E|]. split; [exact HP|]. split; [exact HL|].
    intros b Hb Hd He. destruct (H b Hb Hd He) as (H1 & H2 & H3). split.
    - intros [Hl Hz]. split; [apply H2; assumption|exact Hz].
    - intros Hc. destruct (Nat.lt_ge_cases (List.length ts) 2) as [Hlt|Hge].
      + apply H3. destruct ts; [contradiction|]. simpl in *. lia.
      + apply (dich_rep _ _ _ _ _ _ H1). destruct (zero_dec d e (chain (chain_at b ts))) as [Hz|Hn]; [tauto|exact Hn].
  Qed.
End Matseq.
