(** * Stable: which logarithmic scale contract_matseq reports (supports P_Stable). *)
From Coq Require Import Ring_theory Ring Reals Lra Permutation.
From Verif Require Import Base Scalars Tensor Utils2 MpsBase Spec MatSpec LinAlg Utils2Proofs MatseqProofs ParProofs MatTop MatFinal.

Section Stable.
  Variable K : numfield.
  Add Ring KrSt : (rth K).
  Notation xt := (tensor (xnum K)).
  Notation xr := (tensor xreal).
  Notation XK := (xn_ops K).
  Notation matK := (mat K).
  Notation ofR := (nofR K).
  Notation abssum := (abssum K).

  Lemma abssum_ext m n (C C' : matK) : (forall i j, i < m -> j < n -> nabs K (C i j) = nabs K (C' i j)) ->
    abssum m n C = abssum m n C'.
  Proof.
    intros H. unfold MatseqProofs.abssum. apply (bsum_ext (S := R_ops)). intros i Hi. apply (bsum_ext (S := R_ops)). intros j Hj. apply H; assumption.
  Qed.
  Lemma abssum_scale m n (C X : matK) t : (0 <= t)%R ->
    (forall i j, i < m -> j < n -> smul (C i j) (ofR t) = X i j) -> abssum m n X = (abssum m n C * t)%R.
  Proof.
    intros Ht H. unfold MatseqProofs.abssum.
    change (bsum (S := R_ops) m (fun i => bsum (S := R_ops) n (fun j => nabs K (X i j))) =
      @smul R_cring (bsum (S := R_cring) m (fun i => bsum (S := R_cring) n (fun j => nabs K (C i j)))) t).
    rewrite <- (bsum_mul_r R_cring). apply (bsum_ext (S := R_ops)). intros i Hi.
    rewrite <- (bsum_mul_r R_cring). apply (bsum_ext (S := R_ops)). intros j Hj.
    rewrite <- H by assumption. rewrite nabs_mul, nabs_of, Rabs_pos_eq by exact Ht. reflexivity.
  Qed.
  Lemma abssum_trans m n (C : matK) : abssum n m (mtrans K C) = abssum m n C.
  Proof. unfold MatseqProofs.abssum, mtrans. exact (bsum_swap R_cring n m (fun i j => nabs K (C j i))). Qed.

  (** after a rescaling the entries, when finite, have the prescribed size *)
  Lemma rescale_norm (Q P' : xt) B m n target b C :
    shp Q = B ++ [m; n] -> valid B b -> (0 < target)%R -> 0 < m -> 0 < n ->
    tdivr K Q (tdivc (sum2 (S := xr_ops) (tabs K Q)) target) = Ok P' ->
    finat K P' b m n C -> abssum m n C = target.
  Proof.
    intros HQ Hb Ht Hm Hn E HC.
    set (r := tdivc (sum2 (S := xr_ops) (tabs K Q)) target) in *.
    assert (Hr : shp r = B ++ [1; 1]).
    { unfold r, tdivc. cbn [tmap shp]. apply (sum2_shp (S := xr_ops) _ B m n). exact HQ. }
    destruct (tzip_scale2 (xdivr K) Q r B m n HQ Hr) as (P1 & EP & _ & GP).
    unfold tdivr in E. rewrite EP in E. injection E as <-.
    assert (HX : forall i j, i < m -> j < n ->
      get (A := xnum K) Q (b ++ [i; j]) = Fin (ment K b Q i j) /\
      xdivr K (Fin (ment K b Q i j)) (get r (b ++ [0; 0])) = Fin (C i j)).
    { intros i j Hi Hj. pose proof (HC i j Hi Hj) as E. rewrite GP in E by assumption.
      unfold ment. destruct (get (A := xnum K) Q (b ++ [i; j])) as [a|]; [|cbn in E; discriminate E].
      split; [reflexivity|exact E]. }
    assert (Hrv : get r (b ++ [0; 0]) = XFin (abssum m n (ment K b Q) / target)).
    { unfold r, tdivc. cbn [tmap get].
      rewrite (sum2_abs K Q B b m n (ment K b Q)); [apply xdivc_fin; lra|exact HQ|apply (valid_length _ _ Hb)|].
      intros i j Hi Hj. apply HX; assumption. }
    set (x := (abssum m n (ment K b Q) / target)%R) in *.
    assert (Hx : x <> 0%R).
    { destruct (HX 0 0 Hm Hn) as [_ E]. rewrite Hrv in E. cbn in E. destruct (Req_EM_T x 0); [discriminate|assumption]. }
    assert (Hpos : (0 <= abssum m n (ment K b Q))%R).
    { unfold MatseqProofs.abssum. apply bsumR_nonneg. intros i Hi. apply bsumR_nonneg. intros; apply nabs_pos. }
    assert (Hx0 : (0 < x)%R).
    { assert (0 <= x)%R by (unfold x, Rdiv; apply Rmult_le_pos; [exact Hpos|left; apply Rinv_0_lt_compat, Ht]). lra. }
    rewrite (abssum_scale m n (ment K b Q) C (/ x)).
    - assert (Ha : abssum m n (ment K b Q) <> 0%R) by (intros Hz; apply Hx; unfold x; rewrite Hz; unfold Rdiv; ring).
      unfold x. field. split; lra.
    - left. apply Rinv_0_lt_compat, Hx0.
    - intros i j Hi Hj. destruct (HX i j Hi Hj) as [_ E]. rewrite Hrv in E. cbn in E.
      destruct (Req_EM_T x 0); [contradiction|]. injection E as E. exact E.
  Qed.

  (** the last iteration fixes the size of the result: sequential loop *)
  Lemma rfold_norm B : forall rest k e, mats K B k rest e -> rest <> [] ->
    forall (P : xt) (L : xr) m P' L' b C, shp P = B ++ [m; k] -> shp L = B ++ [1; 1] ->
    rfold (seq_step K) (P, L) rest = Ok (P', L') -> valid B b -> 0 < m -> 0 < e ->
    finat K P' b m e C -> abssum m e C = sqrt (INR (m * e)).
  Proof.
    induction rest as [|t rest IH]; intros k e Hm Hne P L m P' L' b C HP HL E Hb Hm0 He HC; [congruence|].
    inversion Hm as [|? n ? ? ? Ht Hr]; subst. cbn [rfold] in E.
    destruct (seq_step_ok K P t L B m k n HP HL Ht) as (P1 & L1 & E1 & HP1 & HL1 & _).
    rewrite E1 in E. cbn [rbind] in E. destruct rest as [|t' rest].
    - inversion Hr; subst. cbn [rfold] in E. injection E as <- <-.
      unfold seq_step in E1. destruct (matmul_same (S := XK) P t B m k e HP Ht) as (Q & EQ & HQ & _).
      rewrite EQ in E1. cbn [rbind] in E1. rewrite HQ, dimE_2_0, dimE_2_1 in E1.
      destruct (tadd L _) as [L2|]; cbn [rbind] in E1; [|discriminate].
      destruct (tdivr K Q _) as [P2|] eqn:ED; cbn [rbind] in E1; [|discriminate]. injection E1 as -> ->.
      apply (rescale_norm Q P1 B m e (sqrt (INR (m * e))) b C HQ Hb); try assumption.
      apply sqrt_lt_R0, lt_0_INR. nia.
    - apply (IH n e Hr ltac:(discriminate) P1 L1 m P' L' b C); assumption.
  Qed.
  Lemma seq_norm B d ts e P L b C : mats K B d ts e -> 2 <= List.length ts ->
    mat_reduce_seq K ts = Ok (P, L) -> valid B b -> 0 < d -> 0 < e ->
    finat K P b d e C -> abssum d e C = sqrt (INR (d * e)).
  Proof.
    intros Hm Hl E Hb Hd He HC. destruct ts as [|p rest]; [cbn in Hl; lia|].
    unfold mat_reduce_seq in E. cbv zeta in E.
    assert (Hnn : forall (q : xt) rest', List.length (q :: rest') = List.length (p :: rest) -> rest' <> []).
    { intros q rest' Hq ->. cbn in Hq, Hl. lia. }
    destruct (dimE 0 (shp (last (p :: rest) p)) <? dimE 1 (shp p)).
    - pose proof (mats_rev _ _ _ _ _ Hm) as Hm'.
      assert (Hlen : List.length (map transE (rev (p :: rest))) = List.length (p :: rest)) by (rewrite map_length, rev_length; reflexivity).
      destruct (map transE (rev (p :: rest))) as [|q rest'] eqn:Eq; [cbn in Hlen; discriminate|].
      destruct (rfold (seq_step K) _ rest') as [[P1 L1]|] eqn:EF; cbn [rbind] in E; [|discriminate].
      injection E as <- <-. inversion Hm' as [|? n ? ? ? Hs Hr]; subst.
      rewrite <- abssum_trans, Nat.mul_comm.
      refine (rfold_norm B rest' n d Hr (Hnn _ _ Hlen) q _ e P1 L1 b (mtrans K C) Hs _ EF Hb He Hd _).
      + rewrite Hs, (droplast_app B [e; n] 2 eq_refl). reflexivity.
      + intros i j Hi Hj. unfold mtrans. rewrite <- (HC j i Hj Hi), transE_get. reflexivity.
    - destruct (rfold (seq_step K) _ rest) as [[P1 L1]|] eqn:EF; cbn [rbind] in E; [|discriminate].
      injection E as <- <-. inversion Hm as [|? n ? ? ? Hs Hr]; subst.
      refine (rfold_norm B rest n e Hr (Hnn _ _ eq_refl) p _ d P1 L1 b C Hs _ EF Hb Hd He HC).
      rewrite Hs, (droplast_app B [d; n] 2 eq_refl). reflexivity.
  Qed.
  Lemma seq_one p P L b : mat_reduce_seq K [p] = Ok (P, L) -> get L b = XFin 0.
  Proof.
    unfold mat_reduce_seq. cbv zeta. cbn [last rev app map].
    destruct (dimE 0 (shp p) <? dimE 1 (shp p)); cbn [rfold rbind]; intros [= <- <-]; reflexivity.
  Qed.

  (** the same for the parallel loop *)
  Lemma par_step_norm (M : xt) (L : xr) (M' : xt) (L' : xr) B n D b p C :
    2 <= n -> 0 < D -> shp M = B ++ [n; D; D] -> 
    par_step K D (M, L) = Ok (M', L') -> valid B b -> p < n / 2 + (n - n / 2 * 2) ->
    (forall i j, i < D -> j < D -> get M' (b ++ [p; i; j]) = Fin (C i j)) ->
    abssum D D C = INR D.
  Proof.
    intros Hn HD HM E Hb Hp HC. revert E. unfold par_step. cbv zeta. rewrite HM, dimE_3_2.
    set (h := n / 2) in *. set (fl := h * 2) in *. set (lo := n - fl) in *. set (n' := h + lo) in *.
    pose proof (sliceE_shp M B n D D h (fun p => 2 * p) HM) as He.
    pose proof (sliceE_shp M B n D D h (fun p => 1 + 2 * p) HM) as Ho.
    pose proof (sliceE_shp M B n D D lo (fun p => fl + p) HM) as Hl.
    rewrite app_31 in He, Ho.
    destruct (matmul_same (S := XK) _ _ (B ++ [h]) D D D He Ho) as (Q & EQ & HQ & GQ).
    rewrite EQ. cbn [rbind]. rewrite <- app_31 in HQ.
    destruct (cat2E_ok Q _ B h lo D D HQ Hl) as (T & ET & HT & GT).
    rewrite ET. cbn [rbind]. fold n' in HT. rewrite app_31 in HT.
    destruct (tadd L _) as [L1|]; cbn [rbind]; [|discriminate].
    destruct (tdivr K T _) as [M1|] eqn:EM; cbn [rbind]; [|discriminate]. intros [= -> ->].
    apply (rescale_norm T M' (B ++ [n']) D D (INR D) (b ++ [p]) C HT); try assumption.
    - apply valid_app; [exact Hb|apply valid_1; exact Hp].
    - apply lt_0_INR, HD.
    - intros i j Hi Hj. rewrite <- app_31. apply HC; assumption.
  Qed.
  Lemma par_loop_norm B D : forall fuel n (M : xt) (L : xr) M' L' b C,
    2 <= n -> n <= S fuel -> 0 < D -> shp M = B ++ [n; D; D] -> shp L = B ++ [1; 1] ->
    par_loop K fuel D (M, L) = Ok (M', L') -> valid B b ->
    (forall i j, i < D -> j < D -> get M' (b ++ [0; i; j]) = Fin (C i j)) -> abssum D D C = INR D.
  Proof.
    induction fuel as [|fuel IH]; intros n M L M' L' b C Hn Hfu HD HM HL E Hb HC; [lia|].
    cbn [par_loop fst] in E. rewrite HM, dimE_3_2 in E. destruct (Nat.leb_spec n 1) as [H1|H1]; [lia|].
    destruct (par_step_ok K M L B n D H1 HM HL) as (M1 & L1 & E1 & HM1 & HL1 & _).
    rewrite E1 in E. cbn [rbind] in E.
    set (n' := n / 2 + (n - n / 2 * 2)) in *.
    assert (Hn' : 1 <= n' /\ n' <= S fuel).
    { unfold n'. pose proof (Nat.div_mod n 2 ltac:(lia)). pose proof (Nat.mod_upper_bound n 2 ltac:(lia)). lia. }
    destruct (Nat.lt_ge_cases n' 2) as [Hlt|Hge].
    - assert (En : n' = 1) by lia.
      assert (E3 : M' = M1).
      { destruct fuel; cbn [par_loop fst] in E; rewrite HM1, dimE_3_2, En in E; cbn [Nat.leb] in E;
          injection E as <- _; reflexivity. }
      subst M'. apply (par_step_norm M L M1 L1 B n D b 0 C); try assumption. fold n'. lia.
    - apply (IH n' M1 L1 M' L' b C); try assumption; lia.
  Qed.
  Lemma par_norm (M : xt) B n D E P L b C : shp M = B ++ [n; D; E] -> (n <> 1 -> D = E) ->
    mat_reduce_par K M = Ok (P, L) -> 2 <= n -> valid B b -> 0 < D ->
    finat K P b D E C -> abssum D E C = INR D.
  Proof.
    intros HM Hsq Er Hn Hb HD HC. unfold mat_reduce_par in Er. unfold ndim in Er. rewrite HM, !app_length in Er.
    cbn [List.length] in Er. destruct (Nat.leb_spec 3 (List.length B + 3)); [|lia]. cbn [assert_ rbind] in Er.
    rewrite dimE_3_2, dimE_3_1, dimE_3_0, (droplast_app B [n; D; E] 3 eq_refl) in Er. cbv zeta in Er.
    assert (D = E) by (apply Hsq; lia). subst E.
    destruct (Nat.eqb_spec n 0); [lia|]. destruct (Nat.eqb_spec n 1); [lia|].
    rewrite Nat.eqb_refl in Er. cbn [assert_ rbind] in Er.
    destruct (par_loop_ok K B D n n M (tconst (B ++ [1; 1]) (XFin 0))) as (M' & L' & EL & HM' & _ & _ & _);
      try lia; try assumption; [reflexivity|].
    rewrite EL in Er. cbn [rbind fst snd] in Er. injection Er as <- <-.
    apply (par_loop_norm B D n n M (tconst (B ++ [1; 1]) (XFin 0)) M' L' b C); try assumption; try reflexivity; try lia.
    intros i j Hi Hj. rewrite <- (HC i j Hi Hj), (squeezeE2_get M' B D D b i j HM'). reflexivity.
  Qed.
  Lemma par_few (M : xt) P L b : mat_reduce_par K M = Ok (P, L) -> dimE 2 (shp M) < 2 -> get L b = XFin 0.
  Proof.
    unfold mat_reduce_par. destruct (assert_ _) as [[]|]; cbn [rbind]; [|discriminate]. cbv zeta.
    intros E Hn. destruct (Nat.eqb_spec (dimE 2 (shp M)) 0).
    - destruct (batch_broadcast _ _) as [[|t l]|]; cbn [rbind] in E; try discriminate.
      injection E as <- <-. reflexivity.
    - destruct (Nat.eqb_spec (dimE 2 (shp M)) 1); [|lia]. injection E as <- <-. reflexivity.
  Qed.

  (** a representation whose entries have a known size has a known scale *)
  Lemma rep_scale P L b m n X t : rep K P L b m n X -> (0 < t)%R ->
    (forall C, finat K P b m n C -> abssum m n C = t) ->
    get L (b ++ [0; 0]) = XFin (ln (abssum m n X / t)).
  Proof.
    intros (s & C & Hs & HC & HX) Ht Hn. rewrite Hs. f_equal.
    rewrite (abssum_scale m n C X (exp s)); [|left; apply exp_pos|exact HX].
    rewrite (Hn C HC). replace (t * exp s / t)%R with (exp s) by (field; lra).
    symmetry. apply ln_exp.
  Qed.

  Definition rscale (up : bool) (lv' rv' : option xt) (m' : tseq (xnum K)) (d e : nat) (b : list nat) : R :=
    match up, m' with
    | true, TOne t => if dimE 2 (shp t) <? 2 then 1%R else (abssum d e (chain (bmats K m' b)) / INR d)%R
    | _, _ => if List.length (bmats K m' b) + List.length (opt_list lv') + List.length (opt_list rv') <? 2 then 1%R
              else (abssum (rows K lv' d) (rows K rv' e) (chain (lpart K lv' d b ++ bmats K m' b ++ rpart K rv' b))
                    / sqrt (INR (rows K lv' d * rows K rv' e)))%R
    end.
  Lemma reduce_scale up B d e lv' rv' m' P L b :
    bvec_shape K B lv' d -> bvec_shape K B rv' e -> bseq_shape K B m' d e -> seq_finite K m' ->
    (m' = TMany [] -> lv' <> None \/ rv' <> None) ->
    let nv := negb (some_ lv') && negb (some_ rv') in
    (nv = true -> forall t, m' = TOne t -> up = true) ->
    reduce_of K up nv lv' rv' m' = Ok (P, L) -> valid B b -> 0 < d -> 0 < e ->
    ~ lostx K up lv' rv' m' d e b -> get L (b ++ [0; 0]) = XFin (ln (rscale up lv' rv' m' d e b)).
  Proof.
    intros Hlv Hrv Hm Hf Hne nv Hup ER Hb Hd He Hlo.
    destruct (reduce_ok K up B d e lv' rv' m' Hlv Hrv Hm Hf Hne Hup) as (P0 & L0 & ER0 & HP & HL & H).
    fold nv in ER0. rewrite ER in ER0. injection ER0 as <- <-.
    specialize (H b Hb). cbv zeta in H. destruct (H Hd He) as [_ Hrep]. specialize (Hrep Hlo). clear H.
    assert (Hseq : forall ms, mats K B d ms e -> List.length (bmats K m' b) = List.length ms ->
        mat_reduce_seq K (map (unsqE 1) (opt_list lv') ++ ms ++ map (unsqE 0) (opt_list rv')) = Ok (P, L) ->
        get L (b ++ [0; 0]) = XFin (ln (if List.length (bmats K m' b) + List.length (opt_list lv') + List.length (opt_list rv') <? 2 then 1%R
              else (abssum (rows K lv' d) (rows K rv' e) (chain (lpart K lv' d b ++ bmats K m' b ++ rpart K rv' b))
                    / sqrt (INR (rows K lv' d * rows K rv' e)))%R))).
    { intros ms Hms Hlen E. rewrite Hlen.
      assert (Hrow : 0 < rows K lv' d /\ 0 < rows K rv' e) by (destruct lv', rv'; simpl; lia).
      destruct Hrow as [Hr1 Hr2].
      set (full := map (unsqE 1) (opt_list lv') ++ ms ++ map (unsqE 0) (opt_list rv')) in *.
      assert (Hfl : List.length ms + List.length (opt_list lv') + List.length (opt_list rv') = List.length full)
        by (unfold full; rewrite !app_length, !map_length; lia).
      rewrite Hfl.
      assert (Hfull : mats K B (rows K lv' d) full (rows K rv' e)).
      { apply (mats_app K B _ _ d).
        - destruct lv' as [v|]; cbn [opt_list map rows]; [|constructor].
          apply (mats_cons K B 1 d); [apply unsqE1_shp, Hlv|constructor].
        - apply (mats_app K B _ _ e); [exact Hms|].
          destruct rv' as [v|]; cbn [opt_list map rows]; [|constructor].
          apply (mats_cons K B e 1); [apply unsqE0_shp, Hrv|constructor]. }
      destruct (Nat.ltb_spec (List.length full) 2) as [Hs|Hs].
      - rewrite ln_1. destruct full as [|p [|? ?]]; [cbn in E; discriminate| |cbn in Hs; lia].
        apply (seq_one p P L _ E).
      - apply (rep_scale P L b _ _ _ _ Hrep).
        + apply sqrt_lt_R0, lt_0_INR. nia.
        + intros C HC. apply (seq_norm B _ full _ P L b C Hfull Hs E Hb Hr1 Hr2 HC). }
    destruct m' as [t|l].
    - destruct Hm as (n & Hs & Hsq). destruct up.
      + cbn [reduce_of] in ER. unfold rscale. cbn [bmats]. rewrite Hs, dimE_3_2, dimE_3_0.
        destruct (mat_reduce_par_ok K t B n d e Hs Hsq Hf) as (P1 & L1 & E1 & HP1 & HL1 & H1).
        rewrite E1 in ER. cbn [rbind] in ER.
        assert (EL : L1 = L).
        { clear - ER. destruct lv' as [v|]; [destruct (matmul (S := XK) (unsqE 1 v) P1) as [Q|]|]; cbn [rbind] in ER; try discriminate;
            (destruct rv' as [w|]; [destruct (matmul (S := XK) _ (unsqE 0 w))|]; cbn [rbind] in ER; try discriminate);
            injection ER as _ ->; reflexivity. }
        subst L1. destruct (Nat.ltb_spec n 2) as [Hn|Hn].
        * rewrite ln_1. apply (par_few t P1 L _ E1). rewrite Hs, dimE_3_2. exact Hn.
        * destruct (H1 b Hb Hd He) as [_ Hr1].
          apply (rep_scale P1 L b d e).
          -- apply Hr1. intros Hc. apply Hlo. cbn [lostx bmats]. rewrite Hs, dimE_3_2, dimE_3_0. exact Hc.
          -- apply lt_0_INR, Hd.
          -- intros C HC. apply (par_norm t B n d e P1 L b C Hs Hsq E1 Hn Hb Hd HC).
      + cbn [reduce_of] in ER. rewrite Hs, dimE_3_2 in ER.
        destruct (nv && _); [discriminate|].
        apply (Hseq (map (selE 2 t) (seq 0 n))).
        * apply mats_slices; assumption.
        * cbn [bmats]. unfold slices. rewrite !map_length, !seq_length, Hs, dimE_3_2. reflexivity.
        * exact ER.
    - assert (Er : rscale up lv' rv' (TMany l) d e b = rscale false lv' rv' (TMany l) d e b) by (destruct up; reflexivity).
      rewrite Er. apply (Hseq l); [exact Hm| |].
      + cbn [bmats]. unfold chain_at. rewrite map_length. reflexivity.
      + destruct up; cbn [reduce_of] in ER; (destruct (nv && _); [discriminate|exact ER]).
  Qed.

  (** at the level of contract_matseq, in terms of a function [V] giving the exact entries *)
  Definition xscale (m : tseq (xnum K)) (lv rv : option xt) (par : bool) (d e : nat) (b : list nat) (V : list nat -> K) : R :=
    if parallel m lv rv par
    then if n_mats m <? 2 then 1%R else (abssum d e (chain (xmats K m b)) / INR d)%R
    else if n_mats m + n_vecs lv rv <? 2 then 1%R
    else match lv, rv with
         | None, None => (abssum d e (fun i j => V [i; j]) / sqrt (INR (d * e)))%R
         | Some _, None => (abssum 1 e (fun _ j => V [j]) / sqrt (INR (1 * e)))%R
         | None, Some _ => (abssum d 1 (fun i _ => V [i]) / sqrt (INR (d * 1)))%R
         | Some _, Some _ => (abssum 1 1 (fun _ _ => V []) / sqrt (INR (1 * 1)))%R
         end.
  Lemma contract_scale (m : tseq (xnum K)) (lv rv : option xt) par B d e P L b :
    seq_shape m d e -> vec_shape lv d -> vec_shape rv e ->
    seq_finite K m -> (forall t, lv = Some t -> tfinite K t) -> (forall t, rv = Some t -> tfinite K t) ->
    is_broadcast (vec_batches lv ++ vec_batches rv ++ seq_batches m) B ->
    contract_matseq K m lv rv par = Ok (P, L) -> valid B b -> 0 < d -> 0 < e ->
    let V := fun r => gen_entry K
           (option_map (fun t i => fval K (get t (bproj (droplast 1 (shp t)) b ++ [i]))) lv)
           (option_map (fun t i => fval K (get t (bproj (droplast 1 (shp t)) b ++ [i]))) rv)
           (chain (xmats K m b)) d e r in
    ~ nan_x K m lv rv par d e b V ->
    get L (b ++ repeat 0 (List.length (out_shape lv rv d e))) = XFin (ln (xscale m lv rv par d e b V)).
  Proof.
    intros Hm Hlv Hrv Hf Hfl Hfr Hb EC0 Hbv Hd He. cbv zeta.
    set (V := fun r => gen_entry K
           (option_map (fun t i => fval K (get t (bproj (droplast 1 (shp t)) b ++ [i]))) lv)
           (option_map (fun t i => fval K (get t (bproj (droplast 1 (shp t)) b ++ [i]))) rv)
           (chain (xmats K m b)) d e r).
    intros Hnan.
    destruct (bundle_ok K m d e Hm Hf) as (m1 & E1 & Hm1 & Hf1 & Hce1 & Hb1 & Hnd1).
    rewrite app_assoc in Hb. specialize (Hb1 _ _ Hb). rewrite <- app_assoc in Hb1.
    destruct (bcast_inputs_ok K lv rv m1 B d e Hm1 Hlv Hrv Hb1) as (lv' & rv' & m' & E2 & Hol & Hor & Hsb).
    assert (Hcomp : forall s, In s (vec_batches lv ++ vec_batches rv ++ seq_batches m1) -> bc_compat s B)
      by (intros s Hs; apply (is_broadcast_compat _ _ _ Hb1 Hs)).
    destruct (sbout_ok K B m1 m' d e Hm1 Hf1) as (Hbs & Hbf & Hbm);
      [intros s Hs; apply Hcomp; rewrite !in_app_iff; auto|exact Hsb|].
    destruct (obout_ok K B lv lv' d Hlv Hfl) as (Hbl & Hvl); [intros s Hs; apply Hcomp; rewrite !in_app_iff; auto|exact Hol|].
    destruct (obout_ok K B rv rv' e Hrv Hfr) as (Hbr & Hvr); [intros s Hs; apply Hcomp; rewrite !in_app_iff; auto|exact Hor|].
    pose proof (contract_unfold K m lv rv par m1 lv' rv' m' E1 Hnd1 E2) as EC. cbv zeta in EC. rewrite EC in EC0. clear EC.
    set (up := (match m1 with TOne _ => true | TMany _ => false end) && (par || (negb (some_ lv) && negb (some_ rv)))) in *.
    assert (Hc1 : m' = TMany [] -> lv' <> None \/ rv' <> None).
    { intros ->. destruct m1 as [|l]; simpl in Hsb; [contradiction|]. inversion Hsb; subst.
      destruct lv, lv', rv, rv'; simpl in Hol, Hor; try contradiction; try (left; discriminate); try (right; discriminate).
      all: exfalso; destruct Hb1 as [Hb1 _]; apply Hb1; reflexivity. }
    assert (Hc2 : negb (some_ lv') && negb (some_ rv') = true -> forall t, m' = TOne t -> up = true).
    { intros Hnv t ->. destruct m1 as [t1|]; [|simpl in Hsb; contradiction]. unfold up.
      rewrite (some_obout K B lv lv' Hol), (some_obout K B rv rv' Hor) in Hnv. rewrite Hnv, orb_true_r. reflexivity. }
    destruct (reduce_ok K up B d e lv' rv' m' Hbl Hbr Hbs Hbf Hc1 Hc2) as (P0 & L0 & ER & HP & HL & _).
    assert (Hsc := fun Hx => reduce_scale up B d e lv' rv' m' P0 L0 b Hbl Hbr Hbs Hbf Hc1 Hc2 ER Hbv Hd He Hx).
    rewrite (some_obout K B lv lv' Hol), (some_obout K B rv rv' Hor) in ER.
    rewrite ER in EC0. cbn [rbind] in EC0. injection EC0 as <- <-.
    assert (HgL : get ((if some_ rv then squeezeE (A := xreal) 0 else fun t => t) ((if some_ lv then squeezeE 1 else fun t => t) L0))
              (b ++ repeat 0 (List.length (out_shape lv rv d e))) = get L0 (b ++ [0; 0])).
    { clear - HL Hbv. destruct lv, rv; cbn [some_ out_shape List.length repeat].
      - pose proof (squeezeE1_shp L0 B 1 HL) as H1. rewrite app_nil_r.
        rewrite (squeezeE0_get _ B b H1), (squeezeE1_get L0 B 1 b 0 HL). reflexivity.
      - rewrite (squeezeE1_get L0 B 1 b 0 HL). reflexivity.
      - assert (HT' : shp L0 = (B ++ [1]) ++ [1]) by (rewrite <- app_assoc; exact HL).
        rewrite (squeezeE0_get L0 (B ++ [1]) _ HT'), <- app_assoc. reflexivity.
      - reflexivity. }
    refine (eq_trans HgL _). clear HgL.
    destruct (Hbm b Hbv) as [Hce Hcols].
    assert (HM : forall i j, i < d -> chain (bmats K m' b) i j = chain (xmats K m b) i j).
    { intros i j Hi. apply (chain_eq_chain K d); [|exact Hi]. apply (chain_eq_trans K d _ (xmats K m1 b)); [exact Hce|apply Hce1]. }
    assert (HV : forall r, valid (out_shape lv rv d e) r ->
       chain (lpart K lv' d b ++ bmats K m' b ++ rpart K rv' b) (fst (ridx K lv rv r)) (snd (ridx K lv rv r)) = V r).
    { intros r Hr.
      assert (Hro : out_shape lv' rv' d e = out_shape lv rv d e /\ ridx K lv' rv' r = ridx K lv rv r).
      { destruct lv, lv', rv, rv'; simpl in Hol, Hor; try contradiction; split; reflexivity. }
      destruct Hro as [Ho1 Ho2]. rewrite <- Ho2.
      rewrite (X_entry K lv' rv' (bmats K m' b) d e b r Hcols) by (rewrite Ho1; exact Hr).
      unfold V. clear - Hvl Hvr HM Hr Hol Hor Hbv Hlv Hrv.
      destruct lv as [v|], lv' as [v'|], rv as [w|], rv' as [w'|]; simpl in Hol, Hor; try contradiction;
        cbn [option_map gen_entry out_shape] in *.
      - unfold sandwich. apply bsum_ext. intros i Hi. apply bsum_ext. intros j Hj.
        rewrite (Hvl v v') by auto. rewrite (Hvr w w') by auto. rewrite HM by exact Hi. reflexivity.
      - unfold vmul. apply bsum_ext. intros i Hi. rewrite (Hvl v v') by auto. rewrite HM by exact Hi. reflexivity.
      - apply valid_cons in Hr as (i & r' & -> & Hi & _). cbn [nth]. unfold mulv. apply bsum_ext. intros j Hj.
        rewrite (Hvr w w') by auto. rewrite HM by exact Hi. reflexivity.
      - apply valid_cons in Hr as (i & r' & -> & Hi & Hr'). apply valid_cons in Hr' as (j & r'' & -> & Hj & _).
        cbn [nth]. apply HM; exact Hi. }
    pose proof (chain_eq_trans K d _ _ _ Hce (Hce1 b)) as Hce2.
    pose proof (chain_eq_length K _ _ _ Hce2) as Hlen. rewrite xmats_length in Hlen.
    assert (Hup : up = parallel m lv rv par).
    { unfold up, parallel. rewrite (bundle_kind K m m1 E1). f_equal. f_equal. destruct lv, rv; reflexivity. }
    assert (Hnv : List.length (opt_list lv') + List.length (opt_list rv') = n_vecs lv rv).
    { clear - Hol Hor. destruct lv, lv', rv, rv'; simpl in Hol, Hor; try contradiction; reflexivity. }
    assert (Hkind : up = true -> exists t, m' = TOne t).
    { intros Hu. rewrite Hup in Hu. unfold parallel in Hu. apply andb_true_iff in Hu as [Hk _].
      rewrite <- (bundle_kind K m m1 E1) in Hk. destruct m1; [|discriminate]. destruct m' as [t'|]; [|simpl in Hsb; contradiction].
      exists t'. reflexivity. }
    assert (Habs : (abssum (rows K lv' d) (rows K rv' e) (chain (lpart K lv' d b ++ bmats K m' b ++ rpart K rv' b))
                   / sqrt (INR (rows K lv' d * rows K rv' e)))%R =
              match lv, rv with
         | None, None => (abssum d e (fun i j => V [i; j]) / sqrt (INR (d * e)))%R
         | Some _, None => (abssum 1 e (fun _ j => V [j]) / sqrt (INR (1 * e)))%R
         | None, Some _ => (abssum d 1 (fun i _ => V [i]) / sqrt (INR (d * 1)))%R
         | Some _, Some _ => (abssum 1 1 (fun _ _ => V []) / sqrt (INR (1 * 1)))%R
         end).
    { clear - HV Hol Hor. destruct lv, lv', rv, rv'; simpl in Hol, Hor; try contradiction; cbn [rows out_shape] in *; f_equal;
        apply abssum_ext; intros i j Hi Hj; f_equal.
      - assert (i = 0) by lia. assert (j = 0) by lia. subst. apply (HV []). constructor.
      - assert (i = 0) by lia. subst. apply (HV [j]). apply valid_1, Hj.
      - assert (j = 0) by lia. subst. apply (HV [i]). apply valid_1, Hi.
      - apply (HV [i; j]). apply valid_2. auto. }
    assert (Habs2 : abssum d e (chain (bmats K m' b)) = abssum d e (chain (xmats K m b))).
    { apply abssum_ext. intros i j Hi Hj. f_equal. apply HM, Hi. }
    assert (Hcond : lostx K up lv' rv' m' d e b -> nan_x K m lv rv par d e b V).
    { unfold nan_x. rewrite <- Hup. unfold lostx. destruct up.
      - destruct (Hkind eq_refl) as [t ->]. cbn [bmats] in Hlen, HM |- *. unfold slices in Hlen. rewrite map_length, seq_length in Hlen.
        intros [HA HB]. split; [lia|]. intros i j Hi Hj. rewrite <- HM by exact Hi. apply HB; assumption.
      - intros [HA HB]. split; [lia|]. intros r Hr. rewrite <- (HV r Hr).
        assert (Hri : fst (ridx K lv rv r) < rows K lv' d /\ snd (ridx K lv rv r) < rows K rv' e).
        { clear - Hol Hor Hr. destruct lv, lv', rv, rv'; simpl in Hol, Hor; try contradiction;
            cbn [out_shape ridx rows fst snd] in *.
          - lia.
          - apply valid_cons in Hr as (i & r' & -> & Hi & _). cbn [nth]. lia.
          - apply valid_cons in Hr as (i & r' & -> & Hi & _). cbn [nth]. lia.
          - apply valid_cons in Hr as (i & r' & -> & Hi & Hr'). apply valid_cons in Hr' as (j & r'' & -> & Hj & _). cbn [nth]. lia. }
        apply HB; apply Hri. }
    rewrite Hsc by (intros Hx; apply Hnan, Hcond, Hx). f_equal. f_equal.
    unfold rscale, xscale. rewrite <- Hup. destruct up.
    - destruct (Hkind eq_refl) as [t ->]. cbn [bmats] in Hlen. unfold slices in Hlen. rewrite map_length, seq_length in Hlen.
      rewrite Hlen, Habs2. reflexivity.
    - rewrite Hlen, <- Nat.add_assoc, Hnv, Habs. reflexivity.
  Qed.
End Stable.
