(** * ProbProofs: the forward passes of ProbMPS and ProbUnifMPS. *)
From Coq Require Import Ring_theory Ring Reals Lra Permutation.
From Verif Require Import Base Scalars Tensor Utils2 MpsBase Embeddings ProbMps Spec MatSpec ModelSpec
  LinAlg Utils2Proofs EinsumProofs MatseqProofs MatTop MatFinal SlimProofs LogNorm.

Section Prob.
  Variable K : numfield.
  Add Ring KrP : (rth K).
  Notation xt := (tensor (xnum K)).
  Notation xr := (tensor xreal).
  Notation XK := (xn_ops K).
  Notation matK := (mat K).
  Notation ofR := (nofR K).

  Lemma sites_seq {X} D (site : nat -> X -> matK) (g : nat -> X) n :
    sites D site 0 (map g (seq 0 n)) = fchain K D n (fun t => site t (g t)).
  Proof.
    unfold fchain. generalize 0 as a. induction n as [|n IH]; intros a; [reflexivity|].
    cbn [seq map sites]. rewrite IH. reflexivity.
  Qed.
  (** the matrix of row b, site t *)
  Definition row_site (core : tensor K) (bias : option (tensor K)) uniform d (x : tin K) b t : matK :=
    fun i j => sadd (site_mat K core uniform x d b t i j) (bias_at bias i j).
  Lemma row_mats_fchain core bias uniform n d D x b :
    row_mats core bias uniform n d D x b = fchain K D n (row_site core bias uniform d x b).
  Proof.
    destruct x as [ix|v]; cbn [row_mats].
    - unfold row_letters. rewrite sites_seq. reflexivity.
    - unfold row_vectors. rewrite sites_seq. reflexivity.
  Qed.
  Lemma row_amp_chain core edge bias uniform n d D x b :
    row_amp core edge bias uniform n d D x b =
    sandwich D D (edge_at edge 0) (chain (fchain K D n (row_site core bias uniform d x b))) (edge_at edge 1).
  Proof.
    unfold row_amp, amplitude. destruct x as [ix|v].
    - unfold row_letters. rewrite sites_seq. reflexivity.
    - unfold row_vectors. rewrite sites_seq. reflexivity.
  Qed.
  Lemma fchain_ext D n (f g : nat -> matK) :
    (forall t i j, t < n -> i < D -> j < D -> f t i j = g t i j) ->
    forall i j, i < D -> j < D -> chain (fchain K D n f) i j = chain (fchain K D n g) i j.
  Proof.
    unfold fchain. intros H.
    assert (G : forall l, (forall t, In t l -> t < n) -> forall i j, i < D -> j < D ->
      chain (map (fun t => (D, f t)) l) i j = chain (map (fun t => (D, g t)) l) i j).
    { induction l as [|t l IH]; intros Hl i j Hi Hj; [reflexivity|]. cbn [map chain]. unfold mmul.
      apply bsum_ext. intros k Hk. rewrite H by (try assumption; apply Hl; left; reflexivity).
      rewrite IH by (try assumption; intros; apply Hl; right; assumption). reflexivity. }
    apply G. intros t Ht. apply in_seq in Ht. lia.
  Qed.
  Lemma sandwich_ext m n (v v' w w' : vec K) (M M' : matK) :
    (forall i, i < m -> v i = v' i) -> (forall j, j < n -> w j = w' j) ->
    (forall i j, i < m -> j < n -> M i j = M' i j) -> sandwich m n v M w = sandwich m n v' M' w'.
  Proof.
    intros Hv Hw HM. unfold sandwich. apply bsum_ext. intros i Hi. apply bsum_ext. intros j Hj.
    rewrite Hv, Hw, HM by assumption. reflexivity.
  Qed.

  (** result of an amplitude computation, batch element by batch element *)
  Definition amps_ok (P : xt) (L : xr) (batch : nat) (amp : nat -> K) : Prop :=
    shp P = [batch] /\ shp L = [batch] /\
    forall b, b < batch ->
      (exists s c, get L [b] = XFin s /\ get P [b] = Fin c /\ smul c (ofR (exp s)) = amp b) \/
      (get P [b] = Bad /\ amp b = s0).

  Lemma biased_ok (T : xt) uniform bias batch n D :
    shp T = [batch; n; D; D] ->
    match bias with None => True | Some b => shp b = [D; D] end ->
    exists T', biased K uniform bias T = Ok T' /\ shp T' = [batch; n; D; D] /\
      forall b t i j (f : K), b < batch -> t < n -> i < D -> j < D -> get T [b; t; i; j] = Fin f ->
        get T' [b; t; i; j] = Fin (sadd f (bias_at bias i j)).
  Proof.
    intros HT Hb. destruct bias as [bm|]; cbn [biased bias_at].
    2:{ exists T. split; [reflexivity|]. split; [exact HT|]. intros. rewrite H3. f_equal. ring. }
    unfold tzip. rewrite HT.
    set (u := unsq_front (if uniform then 1 else 2) (tfin K bm)).
    assert (Hu : shp u = repeat 1 (if uniform then 1 else 2) ++ [D; D]).
    { unfold u, unsq_front, tfin. cbn [shp tmap]. rewrite Hb. reflexivity. }
    assert (Hbc : bcast [batch; n; D; D] (shp u) = Some [batch; n; D; D]).
    { rewrite Hu. destruct uniform; cbn [repeat app]; unfold bcast; cbn [rev app bcast_rev];
        rewrite ?bdim_refl; unfold bdim.
      - destruct (Nat.eqb_spec n 1) as [->|]; reflexivity.
      - destruct (Nat.eqb_spec n 1) as [->|]; destruct (Nat.eqb_spec batch 1) as [->|]; reflexivity. }
    rewrite Hbc. eexists. split; [reflexivity|]. split; [reflexivity|].
    intros b t i j f Hb' Ht Hi Hj Hf. cbn [get].
    rewrite bproj_self by (repeat constructor; assumption). rewrite Hf.
    assert (Hg : get u (bproj (shp u) [b; t; i; j]) = Fin (get bm [i; j])).
    { rewrite Hu. unfold u, unsq_front, tfin. cbn [get tmap].
      destruct uniform; cbn [repeat app]; unfold bproj; cbn [List.length lastn]; unfold lastn; cbn [List.length Nat.sub skipn map2];
      rewrite !(bidx_valid D) by assumption; reflexivity. }
    etransitivity; [apply f_equal; exact Hg|]. reflexivity.
  Qed.

  (** the default and the parallel mode: everything after the matrices have been selected *)
  Definition used_mats (D L : nat) (bias : option (tensor K)) (g : nat -> matK) : list (nat * matK) :=
    fchain K D L (fun t i j => sadd (g t i j) (bias_at bias i j)).
  Lemma mats_ok (T : xt) (edge : tensor K) (bias : option (tensor K)) (uniform par : bool) (batch L D : nat) (g : nat -> nat -> matK) :
    shp T = [batch; L; D; D] ->
    (forall b t i j, b < batch -> t < L -> i < D -> j < D -> get T [b; t; i; j] = Fin (g b t i j)) ->
    shp edge = [2; D] -> match bias with None => True | Some b => shp b = [D; D] end -> 0 < D ->
    exists P S, (let* mats := biased K uniform bias T in
                 contract_matseq K (TOne mats) (Some (sel0 (tfin K edge) 0)) (Some (sel0 (tfin K edge) 1)) par) = Ok (P, S) /\
      amps_ok P S batch (fun b => sandwich D D (edge_at edge 0) (chain (used_mats D L bias (g b))) (edge_at edge 1)) /\
      (forall b, b < batch ->
         let lost := if par then 2 <= L /\ forall i j, i < D -> j < D -> chain (used_mats D L bias (g b)) i j = s0
                     else sandwich D D (edge_at edge 0) (chain (used_mats D L bias (g b))) (edge_at edge 1) = s0 in
         (lost -> get P [b] = Bad) /\ (~ lost -> get P [b] <> Bad)).
  Proof.
    intros HT GT He Hb HD.
    destruct (biased_ok T uniform bias batch L D HT Hb) as (T' & ET' & HT' & GT'). rewrite ET'. cbn [rbind].
    assert (Hg : forall b t i j, b < batch -> t < L -> i < D -> j < D ->
       get T' [b; t; i; j] = Fin (sadd (g b t i j) (bias_at bias i j))).
    { intros. apply GT'; try assumption. apply GT; assumption. }
    destruct (contract_matseq_ok K (TOne T') (Some (sel0 (tfin K edge) 0)) (Some (sel0 (tfin K edge) 1)) par [batch] D D)
      as (P & S & E & HP & HL & H).
    + exists [batch], L. split; [exact HT'|auto].
    + exists []. cbn [sel0 tfin tmap shp]. rewrite He. reflexivity.
    + exists []. cbn [sel0 tfin tmap shp]. rewrite He. reflexivity.
    + cbn [seq_finite]. intros i Hi. rewrite HT' in Hi.
      apply valid_cons in Hi as (b & r & -> & Hb' & Hi). apply (valid_app3_inv []) in Hi as (q & t & i & j & -> & Hq & Ht & Hi & Hj).
      apply valid_nil in Hq. subst q. cbn [app]. eexists. apply Hg; assumption.
    + intros t Ht. injection Ht as <-. intros i Hi. eexists. reflexivity.
    + intros t Ht. injection Ht as <-. intros i Hi. eexists. reflexivity.
    + cbn [vec_batches seq_batches app sel0 tfin tmap shp]. rewrite He, HT'.
      split; [discriminate|]. split; [|split].
      * intros t [<-|[<-|[<-|[]]]]; simpl; lia.
      * exists [batch]. split; [right; right; left; reflexivity|reflexivity].
      * intros k Hk. assert (k = 0) by (simpl in Hk; lia). subst k. split.
        -- intros t [<-|[<-|[<-|[]]]]; [left|left|right]; reflexivity.
        -- exists [batch]. split; [right; right; left; reflexivity|reflexivity].
    + exists P, S. split; [exact E|]. cbn [out_shape app List.length repeat] in *.
      assert (HMx : forall b, b < batch -> forall i j, i < D -> j < D ->
          chain (xmats K (TOne T') [b]) i j = chain (used_mats D L bias (g b)) i j).
      { intros b Hb' i j Hi Hj. unfold used_mats. cbn [xmats]. rewrite HT'. change (dimE 0 [batch; L; D; D]) with D.
        change (dimE 2 [batch; L; D; D]) with L. change (droplast 3 [batch; L; D; D]) with [batch].
        rewrite (bproj_self [batch] [b]) by (apply valid_1; exact Hb').
        apply (fchain_ext D L (fun p i0 j0 => fval K (get T' [b; p; i0; j0]))); [|exact Hi|exact Hj].
        intros t i' j' Ht Hi' Hj'. rewrite Hg by assumption. reflexivity. }
      assert (HV : forall b, b < batch ->
         sandwich D D (edge_at edge 0) (chain (used_mats D L bias (g b))) (edge_at edge 1) =
         gen_entry K (option_map (fun t i => fval K (get t (bproj (droplast 1 (shp t)) [b] ++ [i]))) (Some (sel0 (tfin K edge) 0)))
         (option_map (fun t i => fval K (get t (bproj (droplast 1 (shp t)) [b] ++ [i]))) (Some (sel0 (tfin K edge) 1)))
         (chain (xmats K (TOne T') [b])) D D []).
      { intros b Hb'. cbn [option_map gen_entry]. apply sandwich_ext.
        - intros i Hi. cbn [sel0 tfin tmap shp get]. rewrite He. reflexivity.
        - intros i Hi. cbn [sel0 tfin tmap shp get]. rewrite He. reflexivity.
        - intros i j Hi Hj. symmetry. apply HMx; assumption. }
      split; [split; [exact HP|split; [exact HL|]]|].
      * intros b Hb'. specialize (H [b] ltac:(apply valid_1; exact Hb')). cbv zeta in H.
        destruct (H HD HD) as [[(s & Hs & Hr)|Hbad] _]; rewrite HV by exact Hb'.
        -- left. destruct (Hr [] ltac:(constructor)) as (c & Hc' & Hx'). exists s, c.
           split; [exact Hs|]. split; [exact Hc'|exact Hx'].
        -- right. apply (Hbad [] ltac:(constructor)).
      * intros b Hb'. match goal with |- (?l -> _) /\ _ => set (lost := l) end. specialize (H [b] ltac:(apply valid_1; exact Hb')). cbv zeta in H.
        destruct (H HD HD) as (_ & Hnan & Hfin).
        match type of Hnan with ?c -> _ => assert (Hcond : c <-> lost) end.
        { unfold nan_x, parallel, lost. cbn [same_shapes n_vecs Nat.eqb andb]. rewrite orb_false_r.
          cbn [n_mats out_shape]. rewrite HT'. change (dimE 2 [batch; L; D; D]) with L. destruct par.
          - split; intros [HA HB]; (split; [exact HA|]); intros i j Hi Hj;
              [rewrite <- HMx by assumption|rewrite HMx by assumption]; apply HB; assumption.
          - split.
            + intros [_ HB]. rewrite HV by exact Hb'. apply HB. constructor.
            + intros Hz. split; [lia|]. intros r Hr. inversion Hr; subst. rewrite <- HV by exact Hb'. exact Hz. }
        split; intros Hc'.
        -- apply (Hnan (proj2 Hcond Hc') []). constructor.
        -- destruct Hfin as (s & _ & Hr); [intros Hx'; apply Hc', Hcond, Hx'|].
           destruct (Hr [] ltac:(constructor)) as (c & Hcc & _). cbn [app] in Hcc. congruence.
  Qed.

  (** *** the three evaluation modes *)
  Lemma amplitudes_ok (m : pmps K) (x : tin K) (uniform slim par : bool) (batch n d D : nat) :
    wf_input x batch n d ->
    shp (pm_core K m) = (if uniform then [d; D; D] else [n; d; D; D]) ->
    shp (pm_edge K m) = [2; D] ->
    match pm_bias K m with None => True | Some b => shp b = [D; D] end ->
    (slim = true -> pm_bias K m = None) -> 0 < D -> 0 < n ->
    exists P L, amplitudes K uniform m x slim par = Ok (P, L) /\
      amps_ok P L batch (row_amp (pm_core K m) (pm_edge K m) (pm_bias K m) uniform n d D x) /\
      (forall b, b < batch ->
         (row_lost (pm_core K m) (pm_edge K m) (pm_bias K m) uniform n d D x slim par b -> get P [b] = Bad) /\
         (~ row_lost (pm_core K m) (pm_edge K m) (pm_bias K m) uniform n d D x slim par b -> get P [b] <> Bad)).
  Proof.
    intros Hx Hc He Hb Hsl HD Hn. destruct m as [core edge bias emb]. cbn [pm_core pm_edge pm_bias] in *.
    unfold amplitudes. cbn [pm_core pm_edge pm_bias].
    change (tin_fin K x) with (tin_fin' K x).
    destruct slim.
    - rewrite (Hsl eq_refl) in *.
      destruct (slim_eval_ok K x core edge uniform batch n d D Hx Hc He HD Hn) as (P & L & E & HP & HL & H).
      exists P, L. split; [exact E|]. split.
      2:{ intros b Hb'. unfold row_lost. rewrite row_mats_fchain.
          assert (Hlp : (forall j, j < D -> lprod K D n (fun i => get edge [0; i]) (site_mat K core uniform x d b) j = s0) <->
            (forall j, j < D -> vmul D (edge_at edge 0) (chain (fchain K D n (row_site core None uniform d x b))) j = s0)).
          { assert (He1 : forall j, j < D -> lprod K D n (fun i => get edge [0; i]) (site_mat K core uniform x d b) j
               = vmul D (edge_at edge 0) (chain (fchain K D n (row_site core None uniform d x b))) j).
            { intros j Hj. unfold lprod, vmul. apply bsum_ext. intros i Hi. f_equal. apply fchain_ext; [|exact Hi|exact Hj].
              intros t i' j' _ _ _. unfold row_site. cbn [bias_at]. ring. }
            split; intros Hz j Hj; [rewrite <- He1 by exact Hj|rewrite He1 by exact Hj]; apply Hz, Hj. }
          destruct (H b Hb') as [Hd1 Hd2]. split; intros Hz.
          - apply Hd2, Hlp, Hz.
          - destruct Hd1 as [(s & c & _ & Hc' & _)|[_ Hz']]; [congruence|]. elim Hz. apply Hlp, Hz'. }
      split; [exact HP|]. split; [exact HL|].
      intros b Hb'. destruct (H b Hb') as [[(s & c & Hs & Hc' & Hx')|[Hbad Hz]] _].
      + left. exists s, c. split; [exact Hs|]. split; [exact Hc'|]. rewrite Hx', row_amp_chain.
        apply sandwich_ext; [reflexivity|reflexivity|]. apply fchain_ext. intros t i j _ _ _.
        unfold row_site. cbn [bias_at]. ring.
      + right. split; [exact Hbad|]. rewrite row_amp_chain.
        transitivity (sandwich D D (edge_at edge 0) (chain (fchain K D n (site_mat K core uniform x d b))) (edge_at edge 1)).
        { apply sandwich_ext; [reflexivity|reflexivity|]. apply fchain_ext. intros t i j _ _ _.
          unfold row_site. cbn [bias_at]. ring. }
        rewrite lprod_sandwich. apply bsum_zero. intros j Hj. specialize (Hz j Hj).
        unfold edge_at at 1. cbv beta in Hz. unfold lprod in *. rewrite Hz. ring.
    - destruct (get_mat_slices_ok K x core uniform batch n d D Hx Hc) as (T & ET & HT & GT).
      bind_with ET. cbn [rbind].
      destruct (mats_ok T edge bias uniform par batch n D (site_mat K core uniform x d) HT GT He Hb HD) as (P & S & E & Ha & Hl).
      exists P, S. split; [exact E|]. split.
      + destruct Ha as (HP & HL & H). split; [exact HP|]. split; [exact HL|]. intros b Hb'. rewrite row_amp_chain. exact (H b Hb').
      + intros b Hb'. unfold row_lost. rewrite row_amp_chain, row_mats_fchain. exact (Hl b Hb').
  Qed.

  (** *** the normalisation *)
  Definition norm_ok (r : res xr) (Z : R) : Prop :=
    ((0 < Z)%R -> exists L, r = Ok L /\ shp L = [] /\ get L [] = XFin (ln Z)) /\
    (Z = 0%R -> match r with
                | Ok L => shp L = [] /\ xfinite (get L []) = false
                | Err e => e = AssertionError
                end).

  Lemma abs2_exp (c : K) s : abs2 (smul c (ofR (exp s))) = (abs2 c * exp (2 * s))%R.
  Proof.
    unfold abs2. rewrite nabs_mul, nabs_of, (Rabs_right (exp s)) by (left; apply exp_pos).
    replace (2 * s)%R with (s + s)%R by ring. rewrite exp_plus. ring.
  Qed.

  Lemma finish_ok (P : xt) (L : xr) (lnr : res xr) check batch amp (Z : R) :
    amps_ok P L batch amp -> norm_ok lnr Z -> (0 <= Z)%R ->
    (forall up : xr, shp up = [batch] -> check up = true) ->
    match finish K (P, L) lnr check with
    | Ok T => (0 < Z)%R /\ shp T = [batch] /\ forall b, b < batch -> is_log (get T [b]) (abs2 (amp b) / Z)
    | Err e => e = AssertionError /\ (Z = 0%R \/ exists b, b < batch /\ amp b = s0 /\ get P [b] = Bad)
    end.
  Proof.
    intros (HP & HL & Ha) [HZ1 HZ0] HZ Hck. unfold finish. cbn [fst snd].
    destruct HZ as [HZ|HZ].
    2:{ symmetry in HZ. specialize (HZ0 HZ). destruct lnr as [l|e]; cbn [rbind]; [|auto].
        destruct HZ0 as [Hs Hf]. rewrite (tall_false _ _ []); [cbn [assert_ rbind]; auto|rewrite Hs; constructor|exact Hf]. }
    destruct (HZ1 HZ) as (l & -> & Hls & Hlg). cbn [rbind].
    assert (E1 : tall xfinite l = true).
    { apply tall_spec. rewrite Hls. intros i Hi. apply valid_nil in Hi. subst i. rewrite Hlg. reflexivity. }
    rewrite E1. cbn [assert_ rbind].
    destruct (tall xnfinite P) eqn:E2; cbn [assert_ rbind].
    2:{ split; [reflexivity|]. right.
        assert (Hex : exists b, b < batch /\ get P [b] = Bad).
        { unfold tall in E2. rewrite HP in E2. cbn [all_idx] in E2.
          assert (Hn : forall bs, forallb (fun i => xnfinite (get P i)) (flat_map (fun i => map (cons i) [[]]) bs) = false ->
             exists b, In b bs /\ get P [b] = Bad).
          { induction bs as [|b bs IH]; cbn [flat_map map app forallb]; [discriminate|]. intros H.
            apply andb_false_iff in H as [H|H].
            - exists b. split; [left; reflexivity|]. destruct (get P [b]); [discriminate|reflexivity].
            - destruct (IH H) as (b' & Hb & Hg). exists b'. split; [right; exact Hb|exact Hg]. }
          destruct (Hn _ E2) as (b & Hb & Hg). apply in_seq in Hb. exists b. split; [lia|exact Hg]. }
        destruct Hex as (b & Hb & Hg). exists b. split; [exact Hb|]. split; [|exact Hg].
        destruct (Ha b Hb) as [(s & c & _ & Hc & _)|[_ Hz]]; [congruence|exact Hz]. }
    assert (Hfin : forall b, b < batch -> exists s c, get L [b] = XFin s /\ get P [b] = Fin c /\ smul c (ofR (exp s)) = amp b).
    { intros b Hb. destruct (Ha b Hb) as [H|[Hbad _]]; [exact H|].
      rewrite tall_spec in E2. specialize (E2 [b]). rewrite HP in E2. rewrite Hbad in E2.
      discriminate E2. apply valid_1, Hb. }
    assert (Hls' : shp (tlog (tabs K P)) = [batch]) by exact HP.
    destruct (tzip_same xadd (tlog (tabs K P)) L [batch] Hls' HL) as (up & Eup & Hup & Gup).
    unfold tadd. rewrite Eup. cbn [rbind]. rewrite Hck by exact Hup. cbn [assert_ rbind].
    unfold tzip. rewrite Hup, Hls. change (bcast [batch] []) with (Some [batch]).
    split; [exact HZ|]. split; [reflexivity|]. intros b Hb. cbn [get].
    rewrite (bproj_self [batch] [b]) by (apply valid_1, Hb). rewrite bproj_nil, Hlg.
    rewrite Gup by (apply valid_1, Hb).
    destruct (Hfin b Hb) as (s & c & Hs & Hc & Hx). unfold tlog, tabs. cbn [tmap get]. rewrite Hs, Hc. cbn [xabs].
    rewrite <- Hx, abs2_exp. destruct (neq0_dec K c) as [->|Hn].
    - right. rewrite nabs_s0. rewrite xlog_0. split; [|reflexivity]. rewrite abs2_s0. unfold Rdiv. ring.
    - left. pose proof (nabs_pos_lt K c Hn) as Hp. rewrite (xlog_pos _ Hp). cbn [xadd xscale xopp].
      assert (Hq : (0 < abs2 c)%R) by (unfold abs2; apply Rmult_lt_0_compat; exact Hp).
      split.
      + apply Rdiv_lt_0_compat; [|exact HZ]. apply Rmult_lt_0_compat; [exact Hq|apply exp_pos].
      + f_equal. unfold Rdiv.
        rewrite !ln_mult; [|exact Hq|apply exp_pos|apply Rmult_lt_0_compat; [exact Hq|apply exp_pos]|apply Rinv_0_lt_compat, HZ].
        rewrite ln_exp, ln_Rinv by exact HZ. unfold abs2. rewrite ln_mult by exact Hp. ring.
  Qed.

  (** the biased core *)
  Lemma biased_core (m : pmps K) (uniform : bool) (n d D : nat) :
    shp (pm_core K m) = (if uniform then [d; D; D] else [n; d; D; D]) ->
    match pm_bias K m with None => True | Some b => shp b = [D; D] end ->
    exists c, biased K uniform (pm_bias K m) (tfin K (pm_core K m)) = Ok c /\
      xcore_ok K c uniform n d D (fun t k i j => letter_site (pm_core K m) uniform (pm_bias K m) t k i j).
  Proof.
    intros Hc Hb. destruct m as [core edge bias emb]. cbn [pm_core pm_edge pm_bias] in *.
    destruct bias as [bm|]; cbn [biased].
    2:{ eexists. split; [reflexivity|]. split; [exact Hc|]. intros t k i j _ _ _ _.
        unfold letter_site, entry, bias_at, tfin. cbn [tmap get]. destruct uniform; f_equal; ring. }
    unfold tzip.
    set (u := unsq_front (if uniform then 1 else 2) (tfin K bm)).
    assert (Hu : shp u = repeat 1 (if uniform then 1 else 2) ++ [D; D]).
    { unfold u, unsq_front, tfin. cbn [shp tmap]. rewrite Hb. reflexivity. }
    assert (Hcs : shp (tfin K core) = if uniform then [d; D; D] else [n; d; D; D]) by exact Hc.
    rewrite Hcs.
    assert (Hbc : bcast (if uniform then [d; D; D] else [n; d; D; D]) (shp u) = Some (if uniform then [d; D; D] else [n; d; D; D])).
    { rewrite Hu. destruct uniform; cbn [repeat app]; unfold bcast; cbn [rev app bcast_rev];
        rewrite ?bdim_refl; unfold bdim.
      - destruct (Nat.eqb_spec d 1) as [->|]; reflexivity.
      - destruct (Nat.eqb_spec d 1) as [->|]; destruct (Nat.eqb_spec n 1) as [->|]; reflexivity. }
    rewrite Hbc. eexists. split; [reflexivity|]. split; [reflexivity|].
    intros t k i j Ht Hk Hi Hj. cbn [get].
    assert (Hg : get u (bproj (shp u) (if uniform then [k; i; j] else [t; k; i; j])) = Fin (get bm [i; j])).
    { rewrite Hu. unfold u, unsq_front, tfin. cbn [get tmap].
      destruct uniform; cbn [repeat app]; unfold bproj, lastn; cbn [List.length Nat.sub skipn map2];
      rewrite !(bidx_valid D) by assumption; reflexivity. }
    etransitivity; [apply f_equal; exact Hg|].
    unfold letter_site, entry, bias_at, tfin. cbn [tmap get].
    destruct uniform; rewrite bproj_self by (repeat constructor; assumption); reflexivity.
  Qed.

  (** ** models without embedding *)
  Lemma lamb_sum_delta d : lamb_sum K delta d d (fun _ => 1%R) delta.
  Proof.
    intros k k' Hk Hk'.
    transitivity (bsum (S := K) d (fun m => smul (delta m k) (delta m k'))).
    2:{ apply bsum_ext. intros m _. rewrite nof_1. unfold delta.
        destruct (m =? k'); [|rewrite nconj_0; ring].
        rewrite <- nof_1, nconj_of, nof_1. ring. }
    transitivity (bsum (S := K) d (fun m => smul (delta k m) (delta m k'))).
    - symmetry. apply (mmul_delta_l K d delta k k' Hk).
    - apply bsum_ext. intros m _. unfold delta. rewrite (Nat.eqb_sym k m). reflexivity.
  Qed.
  Lemma weight_one xs : weight_of (fun _ => 1%R) xs = 1%R.
  Proof. unfold weight_of. induction xs as [|x xs IH]; simpl; [reflexivity|]. rewrite IH. ring. Qed.
  Lemma Zw_one D v w site d n : Zw K D v w (fun _ => 1%R) d site n = partition_fn d n D v w site.
  Proof.
    unfold Zw, weighted_partition_fn, partition_fn. apply (lsum_ext R_cring). intros xs _.
    rewrite weight_one. apply Rmult_1_l.
  Qed.
  Definition model_Z (m : pmps K) uniform (n d D : nat) : R :=
    partition_fn d n D (edge_at (pm_edge K m) 0) (edge_at (pm_edge K m) 1)
      (letter_site (pm_core K m) uniform (pm_bias K m)).
  Lemma model_Z_nonneg m uniform n d D : (0 <= model_Z m uniform n d D)%R.
  Proof. apply lsumR_nonneg. intros. apply abs2_nonneg. Qed.

  Lemma get_log_norm_model (m : pmps K) (uniform : bool) (n d D : nat) c len :
    0 < d -> 0 < D -> shp (pm_edge K m) = [2; D] ->
    xcore_ok K c uniform n d D (fun t k i j => letter_site (pm_core K m) uniform (pm_bias K m) t k i j) ->
    len = Some (Z.of_nat n) \/ (len = None /\ uniform = false) ->
    norm_ok (get_log_norm K c (tfin K (pm_edge K m)) len None) (model_Z m uniform n d D).
  Proof.
    intros Hd HD He Hc Hlen.
    pose proof (get_log_norm_ok K c (tfin K (pm_edge K m)) len None uniform n d D delta d (fun _ => 1%R) delta _
      (edge_at (pm_edge K m) 0) (edge_at (pm_edge K m) 1) (letter_site (pm_core K m) uniform (pm_bias K m)) Hd HD Hc) as H.
    rewrite Zw_one in H. apply H; try reflexivity; try assumption.
    - intros k k' _ _. reflexivity.
    - apply lamb_sum_delta.
    - intros. lra.
    - intros t k i j _ Hk _ _. unfold esite. symmetry.
      apply (bsum_delta_l K d k (fun q => letter_site (pm_core K m) uniform (pm_bias K m) t q i j) Hk).
  Qed.

  Definition fwd (uniform : bool) (m : pmps K) (x : tin K) slim par :=
    if uniform then forward_unif K m x slim par else forward_fixed K m x slim par.
  Definition shapes_of (uniform : bool) (m : pmps K) (n d D : nat) : Prop :=
    if uniform then shapes_unif K m d D else shapes_fixed K m n d D.

  Lemma shapes_get (uniform : bool) m n d D : shapes_of uniform m n d D ->
    0 < d /\ 0 < D /\ shp (pm_core K m) = (if uniform then [d; D; D] else [n; d; D; D]) /\
    shp (pm_edge K m) = [2; D] /\ match pm_bias K m with None => True | Some b => shp b = [D; D] end.
  Proof. destruct uniform; cbn [shapes_of]; unfold shapes_unif, shapes_fixed; tauto. Qed.

  (** a computed amplitude is rejected exactly when it is non-finite or the norm is zero *)
  Lemma finish_exact (P : xt) (L : xr) (lnr : res xr) check batch amp (Z : R) :
    amps_ok P L batch amp -> norm_ok lnr Z -> (0 <= Z)%R ->
    (forall up : xr, shp up = [batch] -> check up = true) ->
    ((0 < Z)%R -> (forall b, b < batch -> get P [b] <> Bad) -> exists T, finish K (P, L) lnr check = Ok T) /\
    ((exists b, b < batch /\ get P [b] = Bad) -> finish K (P, L) lnr check = Err AssertionError) /\
    (Z = 0%R -> finish K (P, L) lnr check = Err AssertionError).
  Proof.
    intros Ha Hnorm HZ Hck. pose proof (finish_ok P L lnr check batch amp Z Ha Hnorm HZ Hck) as HF.
    destruct (finish K (P, L) lnr check) as [T|e] eqn:EF.
    - split; [eauto|]. split.
      + intros (b & Hb & Hbad). exfalso. unfold finish in EF. apply rbind_inv in EF as (l & _ & EF).
        apply rbind_inv in EF as (u1 & _ & EF). apply rbind_inv in EF as (u2 & EA & _).
        apply assert_inv in EA. cbn [fst] in EA. rewrite tall_spec in EA. destruct Ha as (HP & _).
        specialize (EA [b]). rewrite HP, Hbad in EA. discriminate EA. apply valid_1, Hb.
      + intros E0. destruct HF as [H0 _]. lra.
    - destruct HF as [-> Hcase]. split; [|auto]. intros H0 Hn. exfalso.
      destruct Hcase as [HZ0|(b & Hb & _ & Hbad)]; [lra|]. exact (Hn b Hb Hbad).
  Qed.

  (** the forward pass of both classes, without embedding, in every mode *)
  Theorem forward_ok (uniform : bool) (m : pmps K) (x : tin K) (slim par : bool) (batch n d D : nat) :
    shapes_of uniform m n d D -> pm_emb K m = None -> wf_input x batch n d -> 0 < n ->
    (slim = true -> pm_bias K m = None) ->
    let amp := row_amp (pm_core K m) (pm_edge K m) (pm_bias K m) uniform n d D x in
    let Z := model_Z m uniform n d D in
    match snd (fwd uniform m x slim par) with
    | Ok T => (0 < Z)%R /\ shp T = [batch] /\ forall b, b < batch -> is_log (get T [b]) (abs2 (amp b) / Z)
    | Err e => e = AssertionError /\ (Z = 0%R \/ exists b, b < batch /\ amp b = s0)
    end /\
    let lost := row_lost (pm_core K m) (pm_edge K m) (pm_bias K m) uniform n d D x slim par in
    ((0 < Z)%R -> (forall b, b < batch -> ~ lost b) -> exists T, snd (fwd uniform m x slim par) = Ok T) /\
    ((exists b, b < batch /\ lost b) -> snd (fwd uniform m x slim par) = Err AssertionError) /\
    (Z = 0%R -> snd (fwd uniform m x slim par) = Err AssertionError).
  Proof.
    intros Hsh Hemb Hx Hn Hsl amp Z. destruct (shapes_get _ _ _ _ _ Hsh) as (Hd & HD & Hc & He & Hb).
    destruct (amplitudes_ok m x uniform slim par batch n d D Hx Hc He Hb Hsl HD Hn) as (P & L & E & Ha & Hzero).
    fold amp in Ha, Hzero.
    destruct (biased_core m uniform n d D Hc Hb) as (c & Ec & Hcok).
    assert (Hf : exists lnr check, snd (fwd uniform m x slim par) = finish K (P, L) lnr check /\
       norm_ok lnr Z /\ forall up : xr, shp up = [batch] -> check up = true).
    { destruct uniform; cbn [fwd].
      - unfold forward_unif.
        assert (Hxs : exists r, tin_shp x = batch :: n :: r).
        { destruct x as [ix|v]; cbn [wf_input tin_shp] in *; [destruct Hx as [Hs _]; rewrite Hs|rewrite Hx]; eauto. }
        destruct Hxs as (r & Hxs). rewrite Hxs. unfold embed. rewrite Hemb. cbn [snd rbind].
        rewrite E. cbn [rbind]. eexists. eexists. split; [reflexivity|]. split.
        + unfold log_norm_unif. rewrite Ec. cbn [rbind]. unfold lamb_of. rewrite Hemb. cbn [rbind].
          apply get_log_norm_model; try assumption. left; reflexivity.
        + intros up Hup. rewrite Hup. apply list_eqb_refl.
      - unfold forward_fixed, embed. rewrite Hemb. cbn [snd rbind]. rewrite E. cbn [rbind].
        eexists. eexists. split; [reflexivity|]. split.
        + unfold log_norm_fixed. rewrite Ec. cbn [rbind]. unfold lamb_of. rewrite Hemb. cbn [rbind].
          apply get_log_norm_model; try assumption. right; split; reflexivity.
        + reflexivity. }
    destruct Hf as (lnr & check & Hfw & Hnorm & Hck). rewrite Hfw.
    pose proof (finish_ok P L lnr check batch amp Z Ha Hnorm (model_Z_nonneg m uniform n d D) Hck) as HF.
    split.
    - destruct (finish K (P, L) lnr check) as [T|e]; [exact HF|].
      destruct HF as [-> [HZ|(b & Hb' & Hz & _)]]; split; eauto.
    - intros lost. destruct (finish_exact P L lnr check batch amp Z Ha Hnorm (model_Z_nonneg m uniform n d D) Hck)
        as (H1 & H2 & H3). split; [|split; [|exact H3]].
      + intros HZ Hl. apply H1; [exact HZ|]. intros b Hb'. apply (Hzero b Hb'), Hl, Hb'.
      + intros (b & Hb' & Hz). apply H2. exists b. split; [exact Hb'|]. apply (Hzero b Hb'), Hz.
  Qed.
End Prob.
