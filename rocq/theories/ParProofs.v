(** * ParProofs: the parallel reduction and the top-level theorem on contract_matseq. *)
From Coq Require Import Ring_theory Ring Reals Lra Permutation.
From Verif Require Import Base Scalars Tensor Utils2 MpsBase Spec LinAlg Utils2Proofs MatseqProofs.

Section Par.
  Variable K : numfield.
  Add Ring KrP : (rth K).
  Notation xt := (tensor (xnum K)).
  Notation xr := (tensor xreal).
  Notation XK := (xn_ops K).
  Notation matK := (mat K).
  Notation ofR := (nofR K).
  Notation rep := (rep K).
  Notation nonzero := (nonzero K).

  (** list of slices *)
  Definition cl (D : nat) (C : nat -> matK) (a n : nat) : list (nat * matK) :=
    map (fun p => (D, C p)) (seq a n).
  Lemma cols_cl D C a n d : 0 < n -> cols K d (cl D C a n) = D.
  Proof.
    revert a d; induction n as [|n IH]; intros a d H; [lia|].
    unfold cl. cbn [seq map]. rewrite (cols_cons K).
    destruct n as [|n]; [reflexivity|]. apply (IH (S a) D). lia.
  Qed.
  Lemma cl_shift D (C : nat -> matK) a n : cl D (fun p => C (S p)) a n = cl D C (S a) n.
  Proof. unfold cl. rewrite <- seq_shift, map_map. reflexivity. Qed.
  Lemma cl_ext D (C C' : nat -> matK) a n d :
    (forall p i j, a <= p < a + n -> i < max d D -> j < D -> C p i j = C' p i j) ->
    chain_eq K d (cl D C a n) (cl D C' a n).
  Proof.
    revert a d; induction n as [|n IH]; intros a d H; [exact I|].
    unfold cl. cbn [seq map chain_eq]. split; [reflexivity|]. split.
    - intros i k Hi Hk. apply H; lia.
    - apply IH. intros p i j Hp Hi Hj. apply H; lia.
  Qed.
  Lemma pair_chain D h : forall (C : nat -> matK) rest i j,
    chain (cl D (fun p => mmul D (C (2 * p)) (C (2 * p + 1))) 0 h ++ rest) i j
    = chain (cl D C 0 (2 * h) ++ rest) i j.
  Proof.
    induction h as [|h IH]; intros C rest i j; [reflexivity|].
    replace (2 * S h) with (S (S (2 * h))) by lia.
    change (cl D C 0 (S (S (2 * h)))) with ((D, C 0) :: (D, C 1) :: cl D C 2 (2 * h)).
    rewrite <- !cl_shift, <- !app_comm_cons, (chain_absorb K).
    change (cl D (fun p => mmul D (C (2 * p)) (C (2 * p + 1))) 0 (S h))
      with ((D, mmul D (C 0) (C 1)) :: cl D (fun p => mmul D (C (2 * p)) (C (2 * p + 1))) 1 h).
    rewrite <- cl_shift, <- app_comm_cons, !chain_cons.
    apply mmul_ext; [reflexivity|]. intros k Hk.
    rewrite <- (IH (fun p => C (S (S p))) rest k j).
    apply (chain_eq_chain K (S k)); [|lia].
    apply chain_eq_app; [|apply chain_eq_refl].
    apply cl_ext. intros p a b _ _ _.
    replace (2 * S p) with (S (S (2 * p))) by lia. reflexivity.
  Qed.
  (** a zero factor makes the chain zero *)
  Lemma chain_zero_factor D (C : nat -> matK) n p i j :
    p < n -> i < D -> (forall a b, a < D -> b < D -> C p a b = s0) -> chain (cl D C 0 n) i j = s0.
  Proof.
    intros Hp Hi Hz.
    assert (E : cl D C 0 n = cl D C 0 p ++ (D, C p) :: cl D C (S p) (n - S p)).
    { unfold cl. replace n with (p + S (n - S p)) at 1 by lia.
      rewrite seq_app, map_app. reflexivity. }
    rewrite E, (chain_app K D) by exact Hi. unfold mmul. apply bsum_zero. intros k Hk.
    rewrite chain_zero; [ring|]. intros q Hq. apply Hz; [|exact Hq].
    destruct p as [|p]; [exact Hk|]. rewrite cols_cl in Hk by lia. exact Hk.
  Qed.

  Definition repN (P : xt) (L : xr) (b : list nat) (n D : nat) (X : matK) : Prop :=
    exists s (C : nat -> matK), get L (b ++ [0; 0]) = XFin s /\
      (forall p i j, p < n -> i < D -> j < D -> get P (b ++ [p; i; j]) = Fin (C p i j)) /\
      forall i j, i < D -> j < D -> smul (chain (cl D C 0 n) i j) (ofR (exp s)) = X i j.

  (** slice [p] is entirely non-finite *)
  Definition badslice (P : xt) (b : list nat) (p D : nat) : Prop :=
    forall i j, i < D -> j < D -> get P (b ++ [p; i; j]) = Bad.
  Definition dichN (P : xt) (L : xr) (b : list nat) (n D : nat) (X : matK) : Prop :=
    repN P L b n D X \/ ((exists p, p < n /\ badslice P b p D) /\ zeromat K D D X).

  Lemma app_31 (b : list nat) p i j : b ++ [p; i; j] = (b ++ [p]) ++ [i; j].
  Proof. rewrite <- app_assoc. reflexivity. Qed.
  Lemma sliceE_shp {A} (t : tensor A) B n i j m f : shp t = B ++ [n; i; j] ->
    shp (sliceE 2 m f t) = B ++ [m; i; j].
  Proof.
    intros H. unfold sliceE. cbn [shp]. rewrite H.
    rewrite (droplast_app B [n; i; j] 3 eq_refl).
    replace (B ++ [n; i; j]) with ((B ++ [n]) ++ [i; j]) by (rewrite <- app_assoc; reflexivity).
    rewrite (lastn_app (B ++ [n]) [i; j] 2 eq_refl). reflexivity.
  Qed.
  Lemma sliceE_get {A} (t : tensor A) b p i j m f :
    get (sliceE 2 m f t) (b ++ [p; i; j]) = get t (b ++ [f p; i; j]).
  Proof.
    unfold sliceE. cbn [get]. rewrite (droplast_app b [p; i; j] 3 eq_refl).
    rewrite (lastn_app b [p; i; j] 3 eq_refl).
    rewrite app_31, (lastn_app (b ++ [p]) [i; j] 2 eq_refl). reflexivity.
  Qed.
  Lemma cat2E_ok {A} (a c : tensor A) B m n i j :
    shp a = B ++ [m; i; j] -> shp c = B ++ [n; i; j] ->
    exists t, cat2E 2 a c = Ok t /\ shp t = B ++ [m + n; i; j] /\
      forall b p x y, get t (b ++ [p; x; y]) =
        if p <? m then get a (b ++ [p; x; y]) else get c (b ++ [p - m; x; y]).
  Proof.
    intros Ha Hc. unfold cat2E, ndim. rewrite Ha, Hc.
    rewrite !(droplast_app B [_; i; j] 3 eq_refl), !app_31.
    rewrite !(lastn_app (B ++ [_]) [i; j] 2 eq_refl), !list_eqb_refl.
    rewrite !app_length. cbn [List.length]. rewrite Nat.eqb_refl.
    destruct (Nat.leb_spec 3 (List.length B + 1 + 2)); [|lia]. cbn [andb].
    eexists; split; [reflexivity|]. split.
    - cbn [shp]. rewrite <- !app_31, !dimE_3_2. reflexivity.
    - intros b p x y. cbn [get]. rewrite <- !app_31.
      rewrite (lastn_app b [p; x; y] 3 eq_refl), dimE_3_2.
      rewrite (droplast_app b [p; x; y] 3 eq_refl).
      rewrite (app_31 b p x y), (lastn_app (b ++ [p]) [x; y] 2 eq_refl). reflexivity.
  Qed.

  Lemma exp_sum_ln n (r : nat -> R) : (forall p, p < n -> (0 < r p)%R) ->
    exp (bsum (S := R_ops) n (fun p => ln (r p))) = fold_right Rmult 1%R (map r (seq 0 n)).
  Proof.
    induction n as [|n IH]; intros H.
    - simpl. apply exp_0.
    - rewrite seq_S, map_app, fold_right_app. cbn [plus map fold_right].
      change (exp (bsum (S := R_ops) n (fun p => ln (r p)) + ln (r n)) = fold_right Rmult (r n * 1) (map r (seq 0 n)))%R.
      rewrite exp_plus, IH, exp_ln by (intros; apply H; lia). rewrite Rmult_1_r.
      clear. induction (seq 0 n) as [|x l IHl]; simpl; [ring|]. rewrite <- IHl. ring.
  Qed.

  Lemma par_step_ok (M : xt) (L : xr) B n D :
    2 <= n -> shp M = B ++ [n; D; D] -> shp L = B ++ [1; 1] ->
    exists M' L', par_step K D (M, L) = Ok (M', L') /\
      shp M' = B ++ [n / 2 + (n - n / 2 * 2); D; D] /\ shp L' = B ++ [1; 1] /\
      forall b X, valid B b -> 0 < D -> dichN M L b n D X ->
        dichN M' L' b (n / 2 + (n - n / 2 * 2)) D X.
  Proof.
    intros Hn HM HL. unfold par_step. cbv zeta. rewrite HM, dimE_3_2.
    set (h := n / 2). set (fl := h * 2). set (lo := n - fl). set (n' := h + lo).
    pose proof (sliceE_shp M B n D D h (fun p => 2 * p) HM) as He.
    pose proof (sliceE_shp M B n D D h (fun p => 1 + 2 * p) HM) as Ho.
    pose proof (sliceE_shp M B n D D lo (fun p => fl + p) HM) as Hl.
    rewrite app_31 in He, Ho.
    destruct (matmul_same (S := XK) _ _ (B ++ [h]) D D D He Ho) as (Q & EQ & HQ & GQ).
    rewrite EQ. cbn [rbind]. rewrite <- app_31 in HQ.
    destruct (cat2E_ok Q _ B h lo D D HQ Hl) as (T & ET & HT & GT).
    rewrite ET. cbn [rbind]. fold n' in HT.
    set (r := tdivc (sum2 (S := xr_ops) (tabs K T)) (INR D)).
    assert (HT2 : shp T = (B ++ [n']) ++ [D; D]) by (rewrite <- app_31; exact HT).
    assert (Hr : shp r = (B ++ [n']) ++ [1; 1]).
    { unfold r, tdivc. cbn [tmap shp]. apply (sum2_shp (S := xr_ops) _ (B ++ [n']) D D). exact HT2. }
    assert (Hsum : shp (sumE (S := xr_ops) 2 (tlog r)) = B ++ [1; 1]).
    { unfold sumE, tlog. cbn [tmap shp]. rewrite Hr.
      rewrite (lastn_app (B ++ [n']) [1; 1] 2 eq_refl).
      rewrite <- app_assoc. cbn [app]. rewrite (droplast_app B [n'; 1; 1] 3 eq_refl). reflexivity. }
    destruct (tzip_same xadd L _ (B ++ [1; 1]) HL Hsum) as (L' & EL & HL' & GL).
    unfold tadd. rewrite EL. cbn [rbind].
    destruct (tzip_scale2 (xdivr K) T r (B ++ [n']) D D HT2 Hr) as (M' & EM & HM' & GM).
    unfold tdivr. rewrite EM. cbn [rbind].
    exists M', L'. split; [reflexivity|]. rewrite <- app_31 in HM'. split; [exact HM'|].
    split; [exact HL'|].
    assert (Hfl : fl <= n) by (unfold fl, h; pose proof (Nat.div_mod n 2); lia).
    assert (Hlo : lo <= 1).
    { unfold lo, fl, h. pose proof (Nat.div_mod n 2 ltac:(lia)).
      pose proof (Nat.mod_upper_bound n 2 ltac:(lia)). lia. }
    intros b X Hb HD [(s & C & Hs & HC & HX)|[(p0 & Hp0 & Hbad) HXz]].
    2:{ right. split; [|exact HXz].
        destruct (Nat.lt_ge_cases p0 fl) as [Hlt|Hge].
        - set (q := p0 / 2). assert (Hq : q < h).
          { unfold q. apply Nat.div_lt_upper_bound; unfold fl in *; lia. }
          assert (Hpq : p0 = 2 * q \/ p0 = 2 * q + 1).
          { unfold q. pose proof (Nat.div_mod p0 2 ltac:(lia)).
            pose proof (Nat.mod_upper_bound p0 2 ltac:(lia)). lia. }
          exists q. split; [unfold n'; lia|]. intros i j Hi Hj.
          rewrite app_31, GM; [|apply valid_app; [exact Hb|apply valid_1; unfold n'; lia]|exact Hi|exact Hj].
          rewrite <- !app_31, GT. destruct (Nat.ltb_spec q h); [|lia].
          rewrite app_31, GQ by (apply valid_app; [exact Hb|apply valid_1; exact Hq]).
          match goal with |- xdivr K ?x _ = _ => assert (Eb : x = Bad) end.
          { apply (bsum_xbad (S := K) D _ 0); [exact HD|]. rewrite <- !app_31, !sliceE_get.
            destruct Hpq as [E|E].
            - rewrite <- E, Hbad by assumption. reflexivity.
            - assert (E' : get M (b ++ [1 + 2 * q; 0; j]) = Bad)
                by (replace (1 + 2 * q) with p0 by lia; apply Hbad; assumption).
              change (xlift2 (@smul K) (get M (b ++ [2 * q; i; 0])) (get M (b ++ [1 + 2 * q; 0; j])) = Bad).
              rewrite E'.
              destruct (get M (b ++ [2 * q; i; 0])); reflexivity. }
          rewrite Eb. reflexivity.
        - exists h. split; [unfold n', lo in *; lia|]. intros i j Hi Hj.
          rewrite app_31, GM; [|apply valid_app; [exact Hb|apply valid_1; unfold n', lo in *; lia]|exact Hi|exact Hj].
          rewrite <- !app_31, GT. destruct (Nat.ltb_spec h h); [lia|].
          rewrite sliceE_get. replace (fl + (h - h)) with p0 by (unfold lo in *; lia).
          rewrite Hbad by assumption. reflexivity. }
    set (C1 := fun p => if p <? h then mmul D (C (2 * p)) (C (2 * p + 1)) else C (fl + (p - h))).
    assert (HT1 : forall p i j, p < n' -> i < D -> j < D -> get T (b ++ [p; i; j]) = Fin (C1 p i j)).
    { intros p i j Hp Hi Hj. rewrite GT. unfold C1. destruct (Nat.ltb_spec p h) as [Hph|Hph].
      - rewrite app_31, GQ by (apply valid_app; [exact Hb|apply valid_1; exact Hph]).
        apply bsum_xfin. intros q Hq. rewrite <- !app_31, !sliceE_get.
        rewrite !HC by (unfold fl in *; lia).
        replace (1 + 2 * p) with (2 * p + 1) by lia. reflexivity.
      - rewrite sliceE_get. apply HC; try assumption. unfold n', lo in *. lia. }
    assert (Hch : forall i j, i < D -> chain (cl D C1 0 n') i j = chain (cl D C 0 n) i j).
    { intros i j Hi.
      assert (E1 : cl D C1 0 n' = cl D C1 0 h ++ cl D C1 h lo)
        by (unfold n', cl; rewrite seq_app, map_app; reflexivity).
      assert (E2 : cl D C 0 n = cl D C 0 (2 * h) ++ cl D C (2 * h) lo).
      { unfold cl. replace n with (2 * h + lo) at 1 by (unfold lo, fl in *; lia).
        rewrite seq_app, map_app. reflexivity. }
      rewrite E1, E2, <- pair_chain. apply (chain_eq_chain K D); [|exact Hi].
      apply chain_eq_app.
      - apply cl_ext. intros p x y Hp _ _. unfold C1.
        destruct (Nat.ltb_spec p h); [reflexivity|lia].
      - generalize (cols K D (cl D C1 0 h)) as d.
        assert (Hz : forall m o d, o + m <= lo ->
          chain_eq K d (cl D C1 (h + o) m) (cl D C (2 * h + o) m)).
        { induction m as [|m IH]; intros o d Ho'; [exact I|].
          unfold cl. cbn [seq map chain_eq]. split; [reflexivity|]. split.
          - intros x y _ _. unfold C1. destruct (Nat.ltb_spec (h + o) h); [lia|].
            replace (fl + (h + o - h)) with (2 * h + o) by (unfold fl; lia). reflexivity.
          - pose proof (IH (S o) D) as IH'. rewrite !Nat.add_succ_r in IH'. apply IH'. lia. }
        intros d. pose proof (Hz lo 0 d) as Hz0. rewrite !Nat.add_0_r in Hz0. apply Hz0. lia. }
    assert (Hblen : List.length b = List.length B) by (apply valid_length; exact Hb).
    assert (Hdec : (exists p, p < n' /\ zeromat K D D (C1 p)) \/ forall p, p < n' -> nonzero D D (C1 p)).
    { clear. induction n' as [|k [(p & Hp & Hz)|IH]]; [right; lia|left; exists p; auto with arith|].
      destruct (zero_dec K D D (C1 k)) as [Hz|Hy]; [left; exists k; auto with arith|right].
      intros p Hp. destruct (Nat.eq_dec p k) as [->|]; [exact Hy|apply IH; lia]. }
    destruct Hdec as [(p0 & Hp0 & Hz0)|Hnzp].
    { right. split.
      - exists p0. split; [exact Hp0|]. intros i j Hi Hj.
        rewrite app_31, GM; [|apply valid_app; [exact Hb|apply valid_1; exact Hp0]|exact Hi|exact Hj].
        rewrite <- !app_31, HT1 by assumption.
        assert (Hrz : get r (b ++ [p0; 0; 0]) = XFin 0).
        { unfold r, tdivc. cbn [tmap get]. rewrite app_31.
          rewrite (sum2_abs K T (B ++ [n']) (b ++ [p0]) D D (C1 p0)).
          - rewrite xdivc_fin by (apply not_0_INR; lia). f_equal.
            assert (E0 : abssum K D D (C1 p0) = 0%R).
            { unfold abssum. apply (bsum_zero R_cring). intros p Hp. apply (bsum_zero R_cring).
              intros q Hq. rewrite Hz0 by assumption. apply nabs_s0. }
            rewrite E0. unfold Rdiv. ring.
          - exact HT2.
          - rewrite !app_length, Hblen. reflexivity.
          - intros x y Hx Hy. rewrite <- app_31. apply HT1; assumption. }
        rewrite Hrz. simpl. destruct (Req_EM_T 0 0); [reflexivity|congruence].
      - intros i j Hi Hj. rewrite <- HX, <- Hch by assumption.
        rewrite (chain_zero_factor D C1 n' p0 i j Hp0 Hi Hz0). ring. }
    left.
    set (rp := fun p => (abssum K D D (C1 p) / INR D)%R).
    assert (Hrpos : forall p, p < n' -> (0 < rp p)%R).
    { intros p Hp. unfold rp, Rdiv. apply Rmult_lt_0_compat.
      - apply abssum_pos. apply Hnzp, Hp.
      - apply Rinv_0_lt_compat, lt_0_INR, HD. }
    assert (Hrv : forall p, p < n' -> get r (b ++ [p; 0; 0]) = XFin (rp p)).
    { intros p Hp. unfold r, tdivc. cbn [tmap get]. rewrite app_31.
      rewrite (sum2_abs K T (B ++ [n']) (b ++ [p]) D D (C1 p)).
      - apply xdivc_fin. apply not_0_INR. lia.
      - exact HT2.
      - rewrite !app_length, Hblen. reflexivity.
      - intros i j Hi Hj. rewrite <- app_31. apply HT1; assumption. }
    exists (s + bsum (S := R_ops) n' (fun p => ln (rp p)))%R,
           (fun p i j => smul (ofR (/ rp p)) (C1 p i j)).
    split; [|split].
    - rewrite GL by (apply valid_app; [exact Hb|apply valid_2; lia]). rewrite Hs.
      unfold sumE, tlog. cbn [tmap get shp]. rewrite Hr. rewrite <- app_assoc. cbn [app].
      rewrite dimE_3_2. rewrite (droplast_app b [0; 0] 2 eq_refl), (lastn_app b [0; 0] 2 eq_refl).
      cbn [app]. rewrite (bsum_xrfin n' _ (fun p => ln (rp p))); [reflexivity|].
      intros p Hp. change (xlog (get r (b ++ [p; 0; 0])) = XFin (ln (rp p))).
      rewrite Hrv by exact Hp. apply xlog_pos, Hrpos, Hp.
    - intros p i j Hp Hi Hj. rewrite app_31, GM;
        [|apply valid_app; [exact Hb|apply valid_1; exact Hp]|exact Hi|exact Hj].
      rewrite <- !app_31, HT1, Hrv by assumption.
      rewrite xdivr_pos by (apply Hrpos, Hp). f_equal. ring.
    - intros i j Hi Hj. rewrite <- HX, <- Hch by assumption.
      assert (Esc : cl D (fun p i j => smul (ofR (/ rp p)) (C1 p i j)) 0 n'
                 = scale_chain K (map (fun p => (D, (ofR (/ rp p), C1 p))) (seq 0 n')))
        by (unfold scale_chain, cl; rewrite map_map; reflexivity).
      assert (Est : cl D C1 0 n' = strip_chain K (map (fun p => (D, (ofR (/ rp p), C1 p))) (seq 0 n')))
        by (unfold strip_chain, cl; rewrite map_map; reflexivity).
      rewrite Esc, (chain_scale K), <- Est, exp_plus, exp_sum_ln, nof_mul by exact Hrpos.
      assert (Hprod : smul (fold_right (fun p (x : K) => smul (fst (snd p)) x) s1
                  (map (fun p => (D, (ofR (/ rp p), C1 p))) (seq 0 n')))
                (ofR (fold_right Rmult 1%R (map rp (seq 0 n')))) = s1).
      { assert (Hin : forall p, In p (seq 0 n') -> (0 < rp p)%R)
          by (intros p Hp; apply in_seq in Hp; apply Hrpos; lia).
        revert Hin. generalize (seq 0 n') as l. clear.
        induction l as [|p l IH]; intros Hin; cbn [map fold_right].
        - rewrite nof_1. ring.
        - rewrite nof_mul. cbn [fst snd].
          assert (Hp : (0 < rp p)%R) by (apply Hin; left; reflexivity).
          transitivity (smul (smul (ofR (rp p)) (ofR (/ rp p))) s1 : K).
          + rewrite <- IH at 2 by (intros q Hq; apply Hin; right; exact Hq). ring.
          + rewrite nofR_inv by lra. ring. }
      transitivity (smul (smul (fold_right (fun p (x : K) => smul (fst (snd p)) x) s1
                  (map (fun p => (D, (ofR (/ rp p), C1 p))) (seq 0 n')))
                (ofR (fold_right Rmult 1%R (map rp (seq 0 n')))))
               (smul (chain (cl D C1 0 n') i j) (ofR (exp s))) : K); [ring|].
      rewrite Hprod. ring.
  Qed.

  (** slice [p] of a stacked tensor, as a matrix *)
  Definition slice (b : list nat) (M : xt) (p : nat) : matK :=
    fun i j => fval K (get M (b ++ [p; i; j])).
  (** after an iteration no slice consists of finite zeros *)
  Lemma par_step_nonzero (M : xt) (L : xr) (M' : xt) (L' : xr) B n D b p :
    2 <= n -> 0 < D -> shp M = B ++ [n; D; D] -> shp L = B ++ [1; 1] ->
    par_step K D (M, L) = Ok (M', L') -> valid B b -> p < n / 2 + (n - n / 2 * 2) ->
    ~ (forall i j, i < D -> j < D -> get M' (b ++ [p; i; j]) = Fin s0).
  Proof.
    intros Hn HD HM HL E Hb Hp. revert E. unfold par_step. cbv zeta. rewrite HM, dimE_3_2.
    set (h := n / 2) in *. set (fl := h * 2) in *. set (lo := n - fl) in *. set (n' := h + lo) in *.
    pose proof (sliceE_shp M B n D D h (fun p => 2 * p) HM) as He.
    pose proof (sliceE_shp M B n D D h (fun p => 1 + 2 * p) HM) as Ho.
    pose proof (sliceE_shp M B n D D lo (fun p => fl + p) HM) as Hl.
    rewrite app_31 in He, Ho.
    destruct (matmul_same (S := XK) _ _ (B ++ [h]) D D D He Ho) as (Q & EQ & HQ & GQ).
    rewrite EQ. cbn [rbind]. rewrite <- app_31 in HQ.
    destruct (cat2E_ok Q _ B h lo D D HQ Hl) as (T & ET & HT & GT).
    rewrite ET. cbn [rbind]. fold n' in HT.
    set (r := tdivc (sum2 (S := xr_ops) (tabs K T)) (INR D)).
    assert (HT2 : shp T = (B ++ [n']) ++ [D; D]) by (rewrite <- app_31; exact HT).
    assert (Hr : shp r = (B ++ [n']) ++ [1; 1]).
    { unfold r, tdivc. cbn [tmap shp]. apply (sum2_shp (S := xr_ops) _ (B ++ [n']) D D). exact HT2. }
    destruct (tadd L _) as [L1|x]; cbn [rbind]; [|discriminate].
    destruct (tzip_scale2 (xdivr K) T r (B ++ [n']) D D HT2 Hr) as (M1 & EM & HM' & GM).
    unfold tdivr. rewrite EM. cbn [rbind]. intros [= -> ->] Hz.
    assert (Hval : valid (B ++ [n']) (b ++ [p])) by (apply valid_app; [exact Hb|apply valid_1; exact Hp]).
    assert (Hfin : forall i j, i < D -> j < D ->
      get T (b ++ [p; i; j]) = Fin (slice b T p i j) /\ xdivr K (Fin (slice b T p i j)) (get r (b ++ [p; 0; 0])) = Fin s0).
    { intros i j Hi Hj. pose proof (Hz i j Hi Hj) as E. rewrite app_31, GM in E by assumption.
      rewrite <- !app_31 in E.
      change (get (A := xnum K) T (b ++ [p; i; j]) = Fin (fval K (get (A := xnum K) T (b ++ [p; i; j]))) /\
        xdivr K (Fin (fval K (get (A := xnum K) T (b ++ [p; i; j])))) (get r (b ++ [p; 0; 0])) = Fin s0).
      assert (E2 : xdivr K (get (A := xnum K) T (b ++ [p; i; j])) (get r (b ++ [p; 0; 0])) = Fin s0) by exact E. clear E.
      destruct (get (A := xnum K) T (b ++ [p; i; j])) as [a|]; [|cbn in E2; discriminate E2].
      split; [reflexivity|exact E2]. }
    assert (Hrv : get r (b ++ [p; 0; 0]) = XFin (abssum K D D (slice b T p) / INR D)).
    { unfold r, tdivc. cbn [tmap get]. rewrite app_31.
      rewrite (sum2_abs K T (B ++ [n']) (b ++ [p]) D D (slice b T p)).
      - apply xdivc_fin. apply not_0_INR. lia.
      - exact HT2.
      - rewrite !app_length, (valid_length _ _ Hb). reflexivity.
      - intros i j Hi Hj. rewrite <- app_31. apply Hfin; assumption. }
    assert (Hzero : zeromat K D D (slice b T p)).
    { intros i j Hi Hj. destruct (Hfin i j Hi Hj) as [_ E]. rewrite Hrv in E. cbn in E.
      set (x := (abssum K D D (slice b T p) / INR D)%R) in *.
      destruct (Req_EM_T x 0) as [|Hne]; [discriminate|]. injection E as E.
      transitivity (smul (smul (slice b T p i j) (ofR (/ x))) (ofR x)).
      - transitivity (smul (slice b T p i j) (smul (ofR x) (ofR (/ x)))); [|ring].
        rewrite nofR_inv by exact Hne. ring.
      - rewrite E. ring. }
    destruct (Hfin 0 0 HD HD) as [_ E]. rewrite Hrv in E.
    assert (E0 : abssum K D D (slice b T p) = 0%R).
    { unfold abssum. apply (bsum_zero R_cring). intros i Hi. apply (bsum_zero R_cring).
      intros j Hj. rewrite Hzero by assumption. apply nabs_s0. }
    rewrite E0 in E. cbn in E. destruct (Req_EM_T (0 / INR D) 0) as [|Hne]; [discriminate|].
    apply Hne. unfold Rdiv. ring.
  Qed.

  Lemma par_loop_ok B D : forall fuel n (M : xt) (L : xr),
    1 <= n -> n <= S fuel -> shp M = B ++ [n; D; D] -> shp L = B ++ [1; 1] ->
    exists M' L', par_loop K fuel D (M, L) = Ok (M', L') /\
      shp M' = B ++ [1; D; D] /\ shp L' = B ++ [1; 1] /\
      (forall b X, valid B b -> 0 < D -> dichN M L b n D X -> dichN M' L' b 1 D X) /\
      (forall b, 2 <= n -> valid B b -> 0 < D ->
         ~ (forall i j, i < D -> j < D -> get M' (b ++ [0; i; j]) = Fin s0)).
  Proof.
    induction fuel as [|fuel IH]; intros n M L Hn Hfu HM HL; cbn [par_loop fst]; rewrite HM, dimE_3_2.
    - assert (n = 1) by lia. subst n. cbn [Nat.leb]. exists M, L. repeat split; auto; lia.
    - destruct (Nat.leb_spec n 1) as [H1|H1].
      + assert (n = 1) by lia. subst n. exists M, L. repeat split; auto; lia.
      + destruct (par_step_ok M L B n D H1 HM HL) as (M1 & L1 & E & HM1 & HL1 & H).
        rewrite E. cbn [rbind].
        set (n' := n / 2 + (n - n / 2 * 2)) in *.
        assert (Hn' : 1 <= n' /\ n' <= S fuel).
        { unfold n'. pose proof (Nat.div_mod n 2 ltac:(lia)).
          pose proof (Nat.mod_upper_bound n 2 ltac:(lia)). lia. }
        destruct (IH n' M1 L1) as (M2 & L2 & E2 & HM2 & HL2 & H2 & H3); try tauto; try assumption.
        exists M2, L2. split; [exact E2|]. split; [exact HM2|]. split; [exact HL2|].
        split; [intros b X Hb HD HX; apply H2; [exact Hb|exact HD|apply H; assumption]|].
        intros b _ Hb HD. destruct (Nat.lt_ge_cases n' 2) as [Hlt|Hge]; [|apply H3; assumption].
        assert (En : n' = 1) by lia.
        assert (E3 : M2 = M1).
        { destruct fuel; cbn [par_loop fst] in E2; rewrite HM1, dimE_3_2, En in E2; cbn [Nat.leb] in E2;
            injection E2 as <- _; reflexivity. }
        subst M2. apply (par_step_nonzero M L M1 L1 B n D b 0); try assumption. fold n'. lia.
  Qed.

  Lemma squeezeE2_shp {A} (t : tensor A) B i j : shp t = B ++ [1; i; j] ->
    shp (squeezeE 2 t) = B ++ [i; j].
  Proof.
    intros H. unfold squeezeE. rewrite H, dimE_3_2. cbn [Nat.eqb shp].
    rewrite (droplast_app B [1; i; j] 3 eq_refl), app_31,
      (lastn_app (B ++ [1]) [i; j] 2 eq_refl). reflexivity.
  Qed.
  Lemma squeezeE2_get {A} (t : tensor A) B i j b x y : shp t = B ++ [1; i; j] ->
    get (squeezeE 2 t) (b ++ [x; y]) = get t (b ++ [0; x; y]).
  Proof.
    intros H. unfold squeezeE. rewrite H, dimE_3_2. cbn [Nat.eqb get].
    rewrite (droplast_app b [x; y] 2 eq_refl), (lastn_app b [x; y] 2 eq_refl). reflexivity.
  Qed.

  (** slices with [E] columns each *)
  Definition slices (b : list nat) (M : xt) (n E : nat) : list (nat * matK) :=
    map (fun p => (E, slice b M p)) (seq 0 n).

  Lemma teye_fin n i j : i < n -> j < n -> get (teye K n) [i; j] = Fin (delta i j).
  Proof. intros. unfold teye, delta. cbn. destruct (i =? j); reflexivity. Qed.

  Lemma is_broadcast_eye B : is_broadcast [[]; B] B.
  Proof.
    split; [discriminate|]. split; [intros t [<-|[<-|[]]]; simpl; lia|]. split.
    - exists B. split; [right; left; reflexivity|reflexivity].
    - intros k Hk. split.
      + intros t [<-|[<-|[]]]; [left; apply axis_ge; simpl; lia|right; reflexivity].
      + exists B. split; [right; left; reflexivity|reflexivity].
  Qed.

  Lemma mat_reduce_par_ok (M : xt) B n D E : shp M = B ++ [n; D; E] -> (n <> 1 -> D = E) ->
    tfinite K M ->
    exists P L, mat_reduce_par K M = Ok (P, L) /\
      shp P = B ++ [D; E] /\ shp L = B ++ [1; 1] /\
      forall b, valid B b -> 0 < D -> 0 < E ->
        exactly K (2 <= n /\ zeromat K D E (chain (slices b M n E))) P L b D E (chain (slices b M n E)).
  Proof.
    intros HM Hsq Hf. unfold mat_reduce_par. unfold ndim. rewrite HM, !app_length.
    cbn [List.length]. destruct (Nat.leb_spec 3 (List.length B + 3)); [|lia]. cbn [assert_ rbind].
    rewrite dimE_3_2, dimE_3_1, dimE_3_0, (droplast_app B [n; D; E] 3 eq_refl). cbv zeta.
    destruct (Nat.eqb_spec n 0) as [->|Hn0].
    - assert (D = E) by (apply Hsq; lia). subst E.
      destruct (batch_broadcast_ok [teye K D; M] [2; 3] B) as (out & Eo & HF).
      + reflexivity.
      + constructor; [|constructor; [|constructor]]; unfold ndim; simpl; [lia|].
        rewrite HM, app_length. simpl; lia.
      + simpl; lia.
      + unfold batch_shapes. cbn [combine map fst snd]. rewrite HM, (droplast_app B [0; D; D] 3 eq_refl).
        apply is_broadcast_eye.
      + rewrite Eo. cbn [rbind combine] in *. inversion HF as [|? e ? out' [He1 He2] HF']; subst.
        eexists e, _. split; [reflexivity|]. cbn [fst snd] in *. split; [exact He1|].
        split; [reflexivity|]. intros b Hb HD _. cbn [slices seq map].
        split; [lia|intros _]. exists 0%R, delta. split; [reflexivity|]. split.
        * intros i j Hi Hj. rewrite He2; [|apply valid_length; exact Hb|reflexivity|].
          -- apply teye_fin; assumption.
          -- apply valid_2. auto.
        * intros i j Hi Hj. rewrite exp_0, nof_1. unfold slices. simpl. ring.
    - destruct (Nat.eqb_spec n 1) as [->|Hn1].
      + eexists _, _. split; [reflexivity|]. split; [apply squeezeE2_shp; exact HM|].
        split; [reflexivity|]. intros b Hb HD _. split; [lia|intros _].
        apply (rep_ext K _ _ _ _ _ (slice b M 0)).
        * exists 0%R, (slice b M 0). split; [reflexivity|]. split.
          -- intros i j Hi Hj. rewrite (squeezeE2_get M B D E b i j HM). unfold slice.
             destruct (Hf (b ++ [0; i; j])) as [a Ha].
             ++ rewrite HM. apply valid_app; [exact Hb|]. repeat constructor; assumption.
             ++ rewrite Ha. reflexivity.
          -- intros. rewrite exp_0, nof_1. ring.
        * intros i j Hi Hj. symmetry. apply (chain_single K). exact Hj.
      + assert (D = E) by (apply Hsq; lia). subst E. rewrite Nat.eqb_refl. cbn [assert_ rbind].
        destruct (par_loop_ok B D n n M (tconst (B ++ [1; 1]) (XFin 0))) as (M' & L' & EL & HM' & HL' & H' & Hnz);
          try lia; try assumption; [reflexivity|].
        rewrite EL. cbn [rbind fst snd]. eexists _, _. split; [reflexivity|].
        split; [apply squeezeE2_shp; exact HM'|]. split; [exact HL'|].
        intros b Hb HD _.
        destruct (H' b (chain (slices b M n D)) Hb HD) as [(s & C & Hs & HC & HX)|[(p & Hp & Hbad) Hz]].
        * left. exists 0%R, (slice b M). split; [reflexivity|]. split.
          -- intros p i j Hp Hi Hj. unfold slice.
             destruct (Hf (b ++ [p; i; j])) as [a Ha].
             ++ rewrite HM. apply valid_app; [exact Hb|]. repeat constructor; assumption.
             ++ rewrite Ha. reflexivity.
          -- intros. rewrite exp_0, nof_1. unfold slices, cl. ring.
        * assert (Hrep : rep (squeezeE 2 M') L' b D D (chain (slices b M n D))).
          2:{ split; [|intros _; exact Hrep]. intros [Hn2 Hz]. exfalso.
              apply (Hnz b Hn2 Hb HD). intros i j Hi Hj. rewrite (HC 0 i j) by (assumption || lia). f_equal.
              assert (E0 : smul (C 0 i j) (ofR (exp s)) = s0).
              { rewrite <- (Hz i j Hi Hj), <- (HX i j Hi Hj). f_equal. symmetry. apply (chain_single K). exact Hj. }
              transitivity (smul (smul (C 0 i j) (ofR (exp s))) (ofR (/ exp s))).
              - transitivity (smul (C 0 i j) (smul (ofR (exp s)) (ofR (/ exp s)))); [|ring].
                rewrite nofR_inv by (pose proof (exp_pos s); lra). ring.
              - rewrite E0. ring. }
          exists s, (C 0). split; [exact Hs|]. split.
          -- intros i j Hi Hj. rewrite (squeezeE2_get M' B D D b i j HM'). apply HC; [lia|assumption..].
          -- intros i j Hi Hj. rewrite <- HX by assumption. f_equal.
             symmetry. apply (chain_single K). exact Hj.
        * split; [|intros Hc; exfalso; apply Hc; split; [lia|exact Hz]]. intros _. split; [|exact Hz]. intros i j Hi Hj. rewrite (squeezeE2_get M' B D D b i j HM').
          assert (p = 0) by lia. subst p. apply Hbad; assumption.
  Qed.
End Par.
