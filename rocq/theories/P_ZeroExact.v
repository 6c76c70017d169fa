(** * P_ZeroExact: C89 and C90, exactly when a vanishing product gives NaN
    (torchmps/mps_base.py contract_matseq, slim_eval_fun) and when a forward call of the
    probabilistic models raises (torchmps/prob_mps.py). *)
From Coq Require Import Reals Lra Classical_Prop.
From Verif Require Import Base Scalars Tensor Utils2 MpsBase Embeddings ProbMps Spec MatSpec ModelSpec EmbSpec LinAlg
  LogNorm Utils2Proofs MatFinal SlimProofs ProbProofs EmbProofs P_Prob P_Emb P_EmbExact.

Section P.
  Variable K : numfield.
  Add Ring KrZE : (rth K).

  (** C89: contract_matseq, log_format=True and False, every number of matrices, list or stack,
      any batch shapes, zero, one or two boundary vectors, both strategies.  [nan_case] says
      which product must vanish; then every entry of that batch element is NaN, and otherwise
      every entry is finite and exact (also when it is zero). *)
  Theorem C89_matseq_log_exact (m : tseq K) (lv rv : option (tensor K)) (par : bool)
      (B : list nat) (d e : nat) :
    seq_shape m d e -> vec_shape lv d -> vec_shape rv e ->
    is_broadcast (vec_batches lv ++ vec_batches rv ++ seq_batches m) B -> 0 < d -> 0 < e ->
    exists P L,
      contract_matseq K (tslift m) (option_map tlift lv) (option_map tlift rv) par = Ok (P, L) /\
      shp P = B ++ out_shape lv rv d e /\
      shp L = B ++ repeat 1 (List.length (out_shape lv rv d e)) /\
      forall b, valid B b ->
        (nan_case m lv rv par d e b -> forall r, valid (out_shape lv rv d e) r -> get P (b ++ r) = Bad) /\
        (~ nan_case m lv rv par d e b ->
           exists s, get L (b ++ repeat 0 (List.length (out_shape lv rv d e))) = XFin s /\
             forall r, valid (out_shape lv rv d e) r ->
               exists c, get P (b ++ r) = Fin c /\ smul c (nofR K (exp s)) = exact_entry m lv rv d e b r).
  Proof.
    intros H1 H2 H3 H4 Hd He.
    destruct (contract_matseq_dichotomy K m lv rv par B d e H1 H2 H3 H4) as (P & L & E & HP & HL & H).
    exists P, L. split; [exact E|]. split; [exact HP|]. split; [exact HL|].
    intros b Hb. destruct (H b Hb Hd He) as (_ & Hn & Hf & _). split; [exact Hn|exact Hf].
  Qed.
  Theorem C89_matseq_value_exact (m : tseq K) (lv rv : option (tensor K)) (par : bool)
      (B : list nat) (d e : nat) :
    seq_shape m d e -> vec_shape lv d -> vec_shape rv e ->
    is_broadcast (vec_batches lv ++ vec_batches rv ++ seq_batches m) B -> 0 < d -> 0 < e ->
    exists V,
      contract_matseq_value K (tslift m) (option_map tlift lv) (option_map tlift rv) par = Ok V /\
      shp V = B ++ out_shape lv rv d e /\
      forall b r, valid B b -> valid (out_shape lv rv d e) r ->
        (nan_case m lv rv par d e b -> get V (b ++ r) = Bad) /\
        (~ nan_case m lv rv par d e b -> get V (b ++ r) = Fin (exact_entry m lv rv d e b r)).
  Proof.
    intros H1 H2 H3 H4 Hd He.
    destruct (C89_matseq_log_exact m lv rv par B d e H1 H2 H3 H4 Hd He) as (P & L & E & HP & HL & H).
    unfold contract_matseq_value. rewrite E. cbn [rbind fst snd]. unfold tzip. cbn [tmap shp]. rewrite HP, HL, bcast_ones_r.
    eexists. split; [reflexivity|]. split; [reflexivity|].
    intros b r Hbv Hr. destruct (H b Hbv) as [Hn Hf].
    cbn [get tmap]. rewrite bproj_self by (apply valid_app; assumption).
    replace (List.length (out_shape lv rv d e)) with (List.length r) in * by apply (valid_length _ _ Hr).
    rewrite bproj_ones by exact Hbv. split; intros Hc.
    - rewrite (Hn Hc r Hr). reflexivity.
    - destruct (Hf Hc) as (s & Hs & Hcc). destruct (Hcc r Hr) as (c & HPc & Hcx).
      rewrite HPc, Hs. cbn [xexp xmulr]. rewrite Hcx. reflexivity.
  Qed.
  (** C89: slim_eval_fun.  Row b is NaN exactly when the product of the left boundary vector
      with all its matrices vanishes. *)
  Theorem C89_slim_exact (x : tin K) (core bound : tensor K) (uniform : bool) (batch n d D : nat) :
    wf_input x batch n d -> shp core = (if uniform then [d; D; D] else [n; d; D; D]) -> shp bound = [2; D] ->
    0 < D -> 0 < n ->
    exists P L, slim_eval_fun K (tin_fin K x) (tfin K core) (tfin K bound) = Ok (P, L) /\
      shp P = [batch] /\ shp L = [batch] /\
      forall b, b < batch ->
        let v := vmul D (edge_at bound 0) (chain (row_mats core None uniform n d D x b)) in
        ((forall j, j < D -> v j = s0) -> get P [b] = Bad) /\
        ((exists j, j < D /\ v j <> s0) ->
           exists s c, get L [b] = XFin s /\ get P [b] = Fin c /\
             smul c (nofR K (exp s)) = row_amp core bound None uniform n d D x b).
  Proof.
    intros Hx Hc Hed HD Hn.
    destruct (slim_eval_ok K x core bound uniform batch n d D Hx Hc Hed HD Hn) as (P & L & E & HP & HL & H).
    exists P, L. split; [exact E|]. split; [exact HP|]. split; [exact HL|]. intros b Hb. cbv zeta.
    assert (Hfc : forall i j, i < D -> j < D ->
      chain (fchain K D n (site_mat K core uniform x d b)) i j = chain (fchain K D n (row_site K core None uniform d x b)) i j).
    { apply fchain_ext. intros t i' j' _ _ _. unfold row_site. cbn [bias_at]. ring. }
    assert (Hlp : forall j, j < D -> lprod K D n (fun i => get bound [0; i]) (site_mat K core uniform x d b) j
       = vmul D (edge_at bound 0) (chain (row_mats core None uniform n d D x b)) j).
    { intros j Hj. rewrite row_mats_fchain. unfold lprod, vmul. apply bsum_ext. intros i Hi. f_equal. apply Hfc; assumption. }
    destruct (H b Hb) as [H1 H2]. split.
    - intros Hz. apply H2. intros j Hj. rewrite Hlp by exact Hj. apply Hz, Hj.
    - intros (j & Hj & Hnz). destruct H1 as [(s & c & Hs & Hcc & Hv)|[_ Hz]].
      + exists s, c. split; [exact Hs|]. split; [exact Hcc|]. rewrite Hv, row_amp_chain.
        apply sandwich_ext; [reflexivity|reflexivity|exact Hfc].
      + elim Hnz. rewrite <- Hlp by exact Hj. apply Hz, Hj.
  Qed.

  (** C90: ProbMPS and ProbUnifMPS without embedding, in all evaluation modes: forward returns
      exactly when the model is not identically zero and no row of the batch is lost; then
      zero-amplitude rows give -inf and all others their finite log probability.  Otherwise
      the call raises AssertionError. *)
  Definition rows_given (uniform : bool) (m : pmps K) (n d D : nat) (x : tin K) (Zn : R) (batch : nat)
    (T : tensor xreal) : Prop :=
    shp T = [batch] /\ forall b, b < batch ->
      let a := row_amp (pm_core K m) (pm_edge K m) (pm_bias K m) uniform n d D x b in
      (a = s0 -> get T [b] = XNInf) /\ (a <> s0 -> get T [b] = XFin (ln (abs2 a / Zn))).
  Lemma is_log_rows uniform m n d D x Zn batch T : (0 < Zn)%R -> shp T = [batch] ->
    (forall b, b < batch -> is_log (get T [b]) (abs2 (row_amp (pm_core K m) (pm_edge K m) (pm_bias K m) uniform n d D x b) / Zn)) ->
    rows_given uniform m n d D x Zn batch T.
  Proof.
    intros HZ HT H. split; [exact HT|]. intros b Hb. cbv zeta. specialize (H b Hb). split.
    - intros Hz. rewrite Hz, abs2_s0 in H. unfold Rdiv in H. rewrite Rmult_0_l in H.
      destruct H as [[H _]|[_ H]]; [lra|exact H].
    - intros Hz. apply (is_log_pos _ _ H). intros E.
      apply Rmult_integral in E as [E|E]; [apply Hz, abs2_zero, E|]. pose proof (Rinv_0_lt_compat _ HZ). lra.
  Qed.
  Lemma exact_match (r : res (tensor xreal)) batch Zn (lost : nat -> Prop) (ok : tensor xreal -> Prop) : (0 <= Zn)%R ->
    (forall T, r = Ok T -> ok T) -> raises_exactly r batch Zn lost ->
    match r with
    | Ok T => (0 < Zn)%R /\ (forall b, b < batch -> ~ lost b) /\ ok T
    | Err er => er = AssertionError /\ (Zn = 0%R \/ exists b, b < batch /\ lost b)
    end.
  Proof.
    intros HZ Hok (H1 & H2 & H3). destruct r as [T|er].
    - split; [|split; [|apply Hok; reflexivity]].
      + destruct HZ as [HZ|HZ]; [exact HZ|]. discriminate (H3 (eq_sym HZ)).
      + intros b Hb Hl. discriminate H2. exists b. auto.
    - destruct HZ as [HZ|HZ].
      2:{ symmetry in HZ. injection (H3 HZ) as ->. auto. }
      destruct (classic (exists b, b < batch /\ lost b)) as [Hex|Hno].
      + injection (H2 Hex) as ->. auto.
      + destruct (H1 HZ) as [T ET]; [|discriminate]. intros b Hb Hl. apply Hno. exists b. auto.
  Qed.
  Theorem C90_forward_exact (uniform : bool) (m : pmps K) (x : tin K) (slim par : bool) (batch n d D : nat) :
    shapes_of K uniform m n d D -> pm_emb K m = None -> wf_input x batch n d -> 0 < n ->
    (slim = true -> pm_bias K m = None) ->
    let Zn := Zfun K uniform m n d D in
    let lost := row_lost (pm_core K m) (pm_edge K m) (pm_bias K m) uniform n d D x slim par in
    match snd (fwd K uniform m x slim par) with
    | Ok T => (0 < Zn)%R /\ (forall b, b < batch -> ~ lost b) /\ rows_given uniform m n d D x Zn batch T
    | Err er => er = AssertionError /\ (Zn = 0%R \/ exists b, b < batch /\ lost b)
    end.
  Proof.
    intros Hsh He Hx Hn Hsl Zn lost.
    destruct (forward_ok K uniform m x slim par batch n d D Hsh He Hx Hn Hsl) as [H Hex].
    apply exact_match; [apply model_Z_nonneg| |exact Hex].
    intros T ET. rewrite ET in H. destruct H as (HZ & HT & H). apply is_log_rows; assumption.
  Qed.
  (** the same for every embedding over a discrete domain ([Zn] is the normaliser of C70) *)
  Theorem C90_embedded_exact (uniform : bool) (m : pmps K) e f M d phi mn (ix : tensor Z) (slim par : bool) (batch n D : nat) :
    shapes_of K uniform m n d D -> pm_emb K m = Some e -> built K e f (mkDom false (INR M) mn) ->
    embeds_discrete f M d phi ->
    wf_input (K := K) (TLong ix) batch n M -> 0 < n -> (slim = true -> pm_bias K m = None) ->
    exists Zn, normaliser K uniform m n d D M (fun _ => 1%R) phi Zn /\
      let x := TFloat (f (TLong ix)) in
      let lost := row_lost (pm_core K m) (pm_edge K m) (pm_bias K m) uniform n d D x slim par in
      match snd (fwd K uniform m (TLong ix) slim par) with
      | Ok T => (0 < Zn)%R /\ (forall b, b < batch -> ~ lost b) /\ rows_given uniform m n d D x Zn batch T
      | Err er => er = AssertionError /\ (Zn = 0%R \/ exists b, b < batch /\ lost b)
      end.
  Proof.
    intros Hsh He Hb Hf Hx Hn Hsl.
    destruct (raw_lambda_discrete K f M d phi mn num_points_default Hf) as (raw & Er & Hrs & Hrg).
    destruct Hx as [Hs Hr].
    destruct (Hf ix) as [Hfs Hfg].
    { intros i Hi. rewrite Hs in Hi. apply (valid_app2_inv []) in Hi as (b0 & p & q & -> & Hb0 & Hp & Hq).
      apply valid_nil in Hb0. subst b0. apply Hr; assumption. }
    rewrite Hs in Hfs. cbn [app] in Hfs.
    destruct (emb_exact_full K uniform m e f _ (TLong ix) raw slim par batch n d D M (fun _ => 1%R) phi Hsh He Hb Er Hrs Hrg
      ltac:(intros; lra) ltac:(exists []; exact Hs) Hfs Hn Hsl) as (Zn & HZ & H & Hex).
    exists Zn. split; [exact HZ|]. cbv zeta. unfold outcome in H.
    assert (HZ0 : (0 <= Zn)%R).
    { destruct (shapes_get K uniform m n d D Hsh) as (Hd & HD & _).
      destruct HZ as [[_ ->]|[_ (lam & Hlam & ->)]].
      - apply Zw_nonneg. intros; lra.
      - rewrite <- emb_Z_delta. apply Zw_nonneg.
        apply (used_nonneg K d _ lam Hd Hlam). intros k _. apply component_weight_nonneg. intros; lra. }
    apply exact_match; [exact HZ0| |exact Hex].
    intros T ET. rewrite ET in H. destruct H as (H0 & HT & H). apply is_log_rows; assumption.
  Qed.
End P.

Section Examples.
  Local Open Scope nat_scope.
  (** two identity matrices between the vectors (1,0) and (0,1): the exact result is 0; the
      sequential strategy gives NaN, the parallel one gives 0 *)
  Definition ze_m : tseq R_num := TOne (mkT [2; 2; 2] (fun i => if nth 1 i 0 =? nth 2 i 0 then 1%R else 0%R)).
  Definition ze_v (k : nat) : option (tensor R_num) := Some (mkT [2] (fun i => if nth 0 i 0 =? k then 1%R else 0%R)).
  Example C89_both_cases :
    exact_entry ze_m (ze_v 0) (ze_v 1) 2 2 [] [] = 0%R /\
    nan_case ze_m (ze_v 0) (ze_v 1) false 2 2 [] /\ ~ nan_case ze_m (ze_v 0) (ze_v 1) true 2 2 [] /\
    (exists V, contract_matseq_value R_num (tslift ze_m) (option_map tlift (ze_v 0)) (option_map tlift (ze_v 1)) false = Ok V /\
       get V [] = Bad) /\
    (exists V, contract_matseq_value R_num (tslift ze_m) (option_map tlift (ze_v 0)) (option_map tlift (ze_v 1)) true = Ok V /\
       get V [] = Fin 0%R).
  Proof.
    assert (He : exact_entry ze_m (ze_v 0) (ze_v 1) 2 2 [] [] = 0%R).
    { unfold exact_entry, ze_m, ze_v, sandwich. cbn. unfold mmul; cbn. unfold vec_at; cbn. ring. }
    assert (Hn : nan_case ze_m (ze_v 0) (ze_v 1) false 2 2 []).
    { unfold nan_case. cbn [parallel ze_m ze_v same_shapes n_vecs Nat.eqb orb andb out_shape].
      split; [cbn; lia|]. intros r Hr. apply valid_nil in Hr. subst r. exact He. }
    assert (Hnn : ~ nan_case ze_m (ze_v 0) (ze_v 1) true 2 2 []).
    { unfold nan_case. cbn [parallel ze_m ze_v same_shapes n_vecs Nat.eqb orb andb]. intros [_ H].
      specialize (H 0 0 ltac:(lia) ltac:(lia)). unfold ze_m in H. cbn in H. unfold mmul in H; cbn in H. lra. }
    split; [exact He|]. split; [exact Hn|]. split; [exact Hnn|].
    assert (Hb : is_broadcast (vec_batches (ze_v 0) ++ vec_batches (ze_v 1) ++ seq_batches ze_m) []).
    { cbn. split; [discriminate|]. split; [intros t [<-|[<-|[<-|[]]]]; simpl; lia|].
      split; [exists []; simpl; auto|]. cbn. intros k Hk. lia. }
    assert (Hs : seq_shape ze_m 2 2) by (exists [], 2; split; [reflexivity|lia]).
    assert (Hv : forall k, vec_shape (ze_v k) 2) by (intros k; exists []; reflexivity).
    split.
    - destruct (C89_matseq_value_exact R_num ze_m (ze_v 0) (ze_v 1) false [] 2 2 Hs (Hv 0) (Hv 1) Hb ltac:(lia) ltac:(lia)) as (V & E & _ & H).
      exists V. split; [exact E|]. apply (H [] []); [constructor|constructor|exact Hn].
    - destruct (C89_matseq_value_exact R_num ze_m (ze_v 0) (ze_v 1) true [] 2 2 Hs (Hv 0) (Hv 1) Hb ltac:(lia) ltac:(lia)) as (V & E & _ & H).
      exists V. split; [exact E|]. destruct (H [] []) as [_ H']; [constructor|constructor|]. cbn [app] in H'. rewrite (H' Hnn). f_equal. exact He.
  Qed.
  (** a two-site model and the words 00 (amplitude 0, matrix product the identity) and 11
      (amplitude 2): the default contraction loses row 0 and raises; the parallel and the slim
      contraction lose no row and return -inf there *)
  Definition ze_p : pmps R_num :=
    mkP R_num (mkT [2; 2; 2; 2] (fun i => if nth 1 i 0 =? 0 then (if nth 2 i 0 =? nth 3 i 0 then 1%R else 0%R) else 1%R))
      (mkT [2; 2] (fun i => if nth 0 i 0 =? nth 1 i 0 then 1%R else 0%R)) None None.
  Definition ze_x : tensor Z := mkT [2; 2] (fun i => Z.of_nat (nth 0 i 0)).
  Lemma ze_wf : wf_input (K := R_num) (TLong ze_x) 2 2 2.
  Proof. split; [reflexivity|]. intros b t Hb Ht. destruct b as [|[|b]]; [| |lia]; cbn; lia. Qed.
  Ltac ze := unfold psi, row_amp, amplitude, sandwich, vmul, ze_p, ze_x; cbn; unfold mmul; cbn;
    unfold edge_at, letter_site, entry, bias_at; cbn; try change (Pos.to_nat 1) with 1; cbn.
  Example C90_all_modes :
    snd (forward_fixed R_num ze_p (TLong ze_x) false false) = Err AssertionError /\
    (forall slim par, slim || par = true ->
       exists T, snd (forward_fixed R_num ze_p (TLong ze_x) slim par) = Ok T /\ get T [0] = XNInf /\ exists p, get T [1] = XFin p).
  Proof.
    assert (Hs : shapes_fixed R_num ze_p 2 2 2) by (cbn; repeat split; lia).
    assert (H0 : row_amp (pm_core R_num ze_p) (pm_edge R_num ze_p) (pm_bias R_num ze_p) false 2 2 2 (TLong ze_x) 0 = 0%R) by (ze; ring).
    assert (H1 : row_amp (pm_core R_num ze_p) (pm_edge R_num ze_p) (pm_bias R_num ze_p) false 2 2 2 (TLong ze_x) 1 = 2%R) by (ze; ring).
    assert (HZ : (0 < Zfun R_num false ze_p 2 2 2)%R).
    { apply (psi_Z_pos R_num false ze_p ze_x 2 2 2 2 1 ze_wf); [lia|]. intros E. assert (E2 : 2%R = 0%R) by (rewrite <- H1; exact E). lra. }
    split.
    - pose proof (C90_forward_exact R_num false ze_p (TLong ze_x) false false 2 2 2 2 Hs eq_refl ze_wf ltac:(lia) ltac:(auto)) as H.
      cbv zeta in H. cbn [fwd] in H. destruct (snd (forward_fixed R_num ze_p (TLong ze_x) false false)) as [T|er].
      + destruct H as (_ & H & _). elim (H 0 ltac:(lia)). exact H0.
      + destruct H as [-> _]. reflexivity.
    - intros slim par Hsp.
      assert (Hl : forall b, b < 2 -> ~ row_lost (pm_core R_num ze_p) (pm_edge R_num ze_p) (pm_bias R_num ze_p) false 2 2 2 (TLong ze_x) slim par b).
      { intros b Hb. unfold row_lost. cbv zeta. destruct slim; [|destruct par; [|discriminate Hsp]].
        - intros H. specialize (H 0 ltac:(lia)). revert H. destruct b as [|[|b]]; [| |lia]; ze; lra.
        - intros [_ H]. specialize (H 0 0 ltac:(lia) ltac:(lia)). revert H. destruct b as [|[|b]]; [| |lia]; ze; lra. }
      pose proof (C90_forward_exact R_num false ze_p (TLong ze_x) slim par 2 2 2 2 Hs eq_refl ze_wf ltac:(lia) ltac:(auto)) as H.
      cbv zeta in H. cbn [fwd] in H. destruct (snd (forward_fixed R_num ze_p (TLong ze_x) slim par)) as [T|er].
      + destruct H as (_ & _ & _ & H). exists T. split; [reflexivity|]. split.
        * apply (proj1 (H 0 ltac:(lia))). exact H0.
        * eexists. apply (proj2 (H 1 ltac:(lia))). intros E. assert (E2 : 2%R = 0%R) by (rewrite <- H1; exact E). lra.
      + destruct H as [_ [E|(b & Hb & E)]]; [lra|]. elim (Hl b Hb E).
  Qed.
End Examples.

Print Assumptions C89_matseq_log_exact.
Print Assumptions C89_matseq_value_exact.
Print Assumptions C89_slim_exact.
Print Assumptions C90_forward_exact.
Print Assumptions C90_embedded_exact.
