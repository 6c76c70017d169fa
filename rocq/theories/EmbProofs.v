(** * EmbProofs: embeddings and the forward pass of models with an embedding. *)
From Coq Require Import Ring_theory Ring Reals Lra Permutation.
From Verif Require Import Base Scalars Tensor Utils2 MpsBase Embeddings ProbMps Spec MatSpec ModelSpec EmbSpec
  LinAlg Utils2Proofs EinsumProofs MatseqProofs SlimProofs LogNorm ProbProofs.

Section E.
  Variable K : numfield.
  Add Ring KrE : (rth K).
  Notation xt := (tensor (xnum K)).
  Notation xr := (tensor xreal).
  Notation matK := (mat K).
  Notation ofR := (nofR K).

  (** ** simplify_lamb *)
  Lemma close_spec (x y : K) : close K x y = true <-> within_tol x y.
  Proof. unfold close, within_tol. destruct (Rle_dec _ _); split; intros; try assumption; try reflexivity; [discriminate|contradiction]. Qed.
  Lemma nabs_opp_0 (x : K) : rsub x x = s0. Proof. ring. Qed.
  Lemma within_refl (x : K) : within_tol x x.
  Proof.
    unfold within_tol. rewrite nabs_opp_0, nabs_s0. pose proof (nabs_pos K x). lra.
  Qed.
  Lemma rsub_0 (x : K) : rsub x s0 = x. Proof. ring. Qed.
  Lemma allclose_same (a b : tensor K) s : shp a = s -> shp b = s ->
    (allclose K a b = true <-> forall i, valid s i -> within_tol (get a i) (get b i)).
  Proof.
    intros Ha Hb. unfold allclose. destruct (tzip_same (close K) a b s Ha Hb) as (t & E & Ht & Hg). rewrite E.
    rewrite tall_spec, Ht. split; intros H i Hi.
    - apply close_spec. rewrite <- Hg by exact Hi. apply H, Hi.
    - rewrite Hg by exact Hi. apply close_spec, H, Hi.
  Qed.
  Lemma allclose_scalar (m : K) (b : tensor K) d : shp b = [d] ->
    (allclose K (tconst [] m) b = true <-> forall k, k < d -> within_tol m (get b [k])).
  Proof.
    intros Hb. unfold allclose, tzip. rewrite Hb. cbn [tconst shp].
    assert (E : bcast [] [d] = Some [d]) by reflexivity. rewrite E.
    rewrite tall_spec. cbn [shp get]. split; intros H.
    - intros k Hk. apply close_spec. specialize (H [k] ltac:(apply valid_1, Hk)).
      rewrite (bproj_self [d]) in H by (apply valid_1, Hk). exact H.
    - intros i Hi. apply valid_cons in Hi as (k & r & -> & Hk & Hr). apply valid_nil in Hr. subst r.
      rewrite (bproj_self [d]) by (apply valid_1, Hk). apply close_spec, H, Hk.
  Qed.
  (** what the simplified matrix stands for: always diagonal-or-exact *)
  Lemma simplify_lossless (raw : tensor K) d (L : matK) : 0 < d -> shp raw = [d; d] ->
    (forall k k', k < d -> k' < d -> get raw [k; k'] = L k k') -> lossless d L ->
    lamb_ok K (Some (simplify_lamb K raw)) d L.
  Proof.
    intros Hd Hs HL Hll. unfold simplify_lamb.
    assert (Hdg : shp (diag_of K raw) = [d]) by (unfold diag_of; cbn [shp]; rewrite Hs; reflexivity).
    assert (Hgd : forall k, k < d -> get (diag_of K raw) [k] = L k k) by (intros k Hk; cbn; apply HL; exact Hk).
    assert (Hdm : shp (diag_mat K (diag_of K raw)) = [d; d]) by (unfold diag_mat; cbn [shp]; rewrite Hdg; reflexivity).
    pose proof (allclose_same _ _ [d; d] Hdm Hs) as Hac.
    assert (Hmean : mean_of K (diag_of K raw) = Fin (smul (bsum d (fun j => L j j)) (ofR (/ INR d)))).
    { unfold mean_of. rewrite Hdg. cbn [hd xdivr]. destruct (Req_EM_T (INR d) 0) as [E|_].
      - exfalso. revert E. apply not_0_INR. lia.
      - f_equal. f_equal. apply bsum_ext. intros k Hk. apply Hgd, Hk. }
    destruct (allclose K (diag_mat K (diag_of K raw)) raw) eqn:E1.
    - destruct Hac as [Hac _]. specialize (Hac eq_refl).
      destruct Hll as [(k & k' & Hk & Hk' & Hne & Hn)|[Hoff Hdiag]].
      { exfalso. apply Hn. specialize (Hac [k; k'] ltac:(apply valid_2; split; assumption)).
        cbn [diag_mat get nth] in Hac. destruct (Nat.eqb_spec k k'); [contradiction|]. rewrite HL in Hac by assumption. exact Hac. }
      rewrite Hmean. set (mu := smul (bsum d (fun j => L j j)) (ofR (/ INR d))) in *.
      pose proof (allclose_scalar mu _ d Hdg) as Has.
      destruct (allclose K (tconst [] mu) (diag_of K raw)) eqn:E2; cbn [lamb_ok].
      + destruct Has as [Has _]. specialize (Has eq_refl). destruct Hdiag as [[a Ha]|(k & Hk & Hn)].
        2:{ exfalso. apply Hn. rewrite <- Hgd by exact Hk. apply Has, Hk. }
        left. exists mu. split; [reflexivity|]. split; [reflexivity|]. intros k k' Hk Hk'.
        assert (Hmu : mu = a).
        { unfold mu. transitivity (smul (bsum d (fun j => smul a (ofR 1))) (ofR (/ INR d))).
          - f_equal. apply bsum_ext. intros j Hj. rewrite Ha by exact Hj. rewrite nof_1. ring.
          - rewrite (bsum_mul_l K). rewrite <- nofR_sum.
            replace (bsum (S := R_ops) d (fun _ => 1%R)) with (INR d).
            + transitivity (smul a (smul (ofR (INR d)) (ofR (/ INR d)))); [ring|].
              rewrite nofR_inv; [ring|]. apply not_0_INR. lia.
            + clear. induction d as [|d IH]; [reflexivity|]. rewrite S_INR, IH. reflexivity. }
        unfold delta. destruct (Nat.eqb_spec k k') as [<-|Hne]; [rewrite Ha, Hmu by exact Hk; ring|].
        rewrite Hoff by assumption. ring.
      + right. left. exists (fun k => L k k). split; [exact Hdg|]. split.
        * intros k Hk. cbn [tmap get]. rewrite Hgd by exact Hk. reflexivity.
        * intros k k' Hk Hk'. unfold delta. destruct (Nat.eqb_spec k k') as [<-|Hne]; [ring|].
          rewrite Hoff by assumption. ring.
    - cbn [lamb_ok]. right. right. split; [exact Hs|]. intros k k' Hk Hk'. cbn [tmap get]. rewrite HL by assumption. reflexivity.
  Qed.

  (** ** raw lambda *)
  Lemma arange_len_INR M : arange_len (INR M) = M.
  Proof.
    unfold arange_len, rfloor.
    assert (Hu : up (- INR M) = (- Z.of_nat M + 1)%Z).
    { symmetry. apply tech_up; rewrite plus_IZR, opp_IZR, <- INR_IZR_INZ; lra. }
    rewrite Hu. lia.
  Qed.
  Lemma lamb_sum_gram M wt phi d : lamb_sum K (gram_matrix M wt phi) d M wt phi.
  Proof. intros k k' _ _. reflexivity. Qed.

  Lemma raw_lambda_discrete (f : efun K) M d phi mn N :
    embeds_discrete f M d phi ->
    exists raw, raw_lambda K N f (mkDom false (INR M) mn) = Ok raw /\ shp raw = [d; d] /\
      forall k k', k < d -> k' < d -> get raw [k; k'] = gram_matrix M (fun _ => 1%R) phi k k'.
  Proof.
    intros Hf. unfold raw_lambda. cbn [dom_cont dom_max]. rewrite arange_len_INR.
    set (pts := mkT [M] (fun i => Z.of_nat (hd 0 i))).
    destruct (Hf pts) as [Hs Hg].
    { intros i Hi. cbn [pts shp] in Hi. apply valid_cons in Hi as (k & r & -> & Hk & _). cbn. lia. }
    set (emb := f (TLong pts)) in *. cbn [pts shp app] in Hs.
    assert (Hnd : ndim emb = 2) by (unfold ndim; rewrite Hs; reflexivity). rewrite Hnd. cbn [Nat.eqb assert_ rbind].
    rewrite Hs. cbn [nth]. destruct (Req_EM_T (INR M) (INR M)); [|congruence]. cbn [assert_ rbind].
    destruct (eins_outer emb (tmap (nconj K) emb) M d d Hs Hs) as (t & E & Ht & Hgt).
    rewrite E. cbn [rbind]. eexists. split; [reflexivity|]. split; [unfold sum0; cbn [shp]; rewrite Ht; reflexivity|].
    intros k k' Hk Hk'. unfold sum0. cbn [get]. rewrite Ht. cbn [hd]. unfold gram_matrix. apply bsum_ext.
    intros m Hm. rewrite Hgt by assumption. cbn [tmap get].
    pose proof (Hg [m] k ltac:(apply valid_1; exact Hm) Hk) as H1.
    pose proof (Hg [m] k' ltac:(apply valid_1; exact Hm) Hk') as H2. cbn [app pts get hd] in H1, H2.
    rewrite H1, H2, Nat2Z.id, nof_1. ring.
  Qed.
  Lemma trap_weight_mid n pt j : S j < n ->
    trap_weight n pt j = ((pt (S j) - pt j) / 2 + (if 0 <? j then (pt j - pt (j - 1)%nat) / 2 else 0))%R.
  Proof.
    intros H. unfold trap_weight. assert (E : S j <? n = true) by (apply Nat.ltb_lt; lia). rewrite E.
    destruct (0 <? j); lra.
  Qed.
  Lemma trap_weight_last n pt : trap_weight (S n) pt n = (if 0 <? n then (pt n - pt (n - 1)%nat) / 2 else 0)%R.
  Proof. unfold trap_weight. rewrite Nat.ltb_irrefl. destruct (0 <? n); lra. Qed.
  Lemma trapezoid_weights n pt g : trapezoid n pt g = bsum (S := R_ops) n (fun k => trap_weight n pt k * g k)%R.
  Proof.
    unfold trapezoid. destruct n as [|n]; [reflexivity|]. cbn [Nat.sub]. rewrite Nat.sub_0_r.
    assert (G : forall j, j <= n -> bsum (S := R_ops) j (fun k => ((pt (S k) - pt k) * (g k + g (S k)) / 2)%R) =
      (bsum (S := R_ops) j (fun k => trap_weight (S n) pt k * g k) + (if 0 <? j then (pt j - pt (j-1)%nat) / 2 else 0) * g j)%R).
    { induction j as [|j IH]; intros Hj; [cbn; lra|].
      cbn [bsum]. rewrite IH by lia. cbn [sadd R_ops]. cbv beta.
      rewrite (trap_weight_mid (S n) pt j) by lia.
      replace (S j - 1) with j by lia.
      change (0 <? S j) with true. cbv iota.
      destruct (0 <? j); lra. }
    rewrite (G n) by lia. cbn [bsum sadd R_ops]. f_equal. rewrite trap_weight_last. reflexivity.
  Qed.
  Lemma nofR_opp r : ofR (- r) = ropp (ofR r).
  Proof.
    assert (H : sadd (ofR (- r)) (ofR r) = s0) by (rewrite <- nof_add; replace (- r + r)%R with 0%R by lra; apply nof_0).
    transitivity (sadd (sadd (ofR (- r)) (ofR r)) (ropp (ofR r))); [ring|rewrite H; ring].
  Qed.
  Lemma trap_weightsK n pt (y : nat -> K) :
    bsum (n - 1) (fun k => smul (ofR ((pt (S k) - pt k) / 2)) (sadd (y k) (y (S k)))) =
    bsum n (fun k => smul (ofR (trap_weight n pt k)) (y k)).
  Proof.
    destruct n as [|n]; [reflexivity|]. cbn [Nat.sub]. rewrite Nat.sub_0_r.
    assert (G : forall j, j <= n -> bsum j (fun k => smul (ofR ((pt (S k) - pt k) / 2)) (sadd (y k) (y (S k)))) =
      sadd (bsum j (fun k => smul (ofR (trap_weight (S n) pt k)) (y k)))
           (smul (ofR (if 0 <? j then (pt j - pt (j-1)%nat) / 2 else 0)) (y j))).
    { induction j as [|j IH]; intros Hj; [cbn; rewrite nof_0; ring|].
      cbn [bsum]. rewrite IH by lia. cbv beta.
      rewrite (trap_weight_mid (S n) pt j) by lia.
      replace (S j - 1) with j by lia.
      change (0 <? S j) with true. cbv iota.
      rewrite nof_add. ring. }
    rewrite (G n) by lia. cbn [bsum]. f_equal. rewrite trap_weight_last. reflexivity.
  Qed.
  Lemma grid_in a b n k : (a < b)%R -> 1 < n -> k < n -> (a <= grid a b n k <= b)%R.
  Proof.
    intros Hab Hn Hk. unfold grid.
    assert (H1 : (0 < INR (n - 1))%R) by (apply lt_0_INR; lia).
    assert (H2 : (0 <= INR k)%R) by apply pos_INR.
    assert (H3 : (INR k <= INR (n - 1))%R) by (apply le_INR; lia).
    assert (H4 : (0 <= INR k / INR (n-1) <= 1)%R).
    { split; [apply Rmult_le_pos; [exact H2|left; apply Rinv_0_lt_compat, H1]|].
      apply (Rmult_le_reg_r (INR (n-1)) _ _ H1). unfold Rdiv. rewrite Rmult_assoc, Rinv_l by lra. lra. }
    replace (INR k * ((b - a) / INR (n - 1)))%R with ((INR k / INR (n-1)) * (b - a))%R by (unfold Rdiv; ring).
    split; nra.
  Qed.
  Lemma trap_weight_nonneg a b n k : (a < b)%R -> 1 < n -> (0 <= trap_weight n (grid a b n) k)%R.
  Proof.
    intros Hab Hn. unfold trap_weight.
    assert (H1 : (0 < INR (n - 1))%R) by (apply lt_0_INR; lia).
    assert (H2 : (0 < (b - a) / INR (n - 1))%R) by (apply Rmult_lt_0_compat; [lra|apply Rinv_0_lt_compat, H1]).
    assert (Hstep : forall j, (grid a b n (S j) - grid a b n j = (b - a) / INR (n - 1))%R).
    { intros j. unfold grid. rewrite S_INR. ring. }
    destruct (S k <? n); [rewrite Hstep|]; (destruct k as [|k]; [cbn; lra|]);
      change (0 <? S k) with true; cbv iota; replace (S k - 1) with k by lia; rewrite Hstep; lra.
  Qed.
  Lemma raw_lambda_interval (f : efun K) a b d phi N :
    (a < b)%R -> 1 < N -> embeds_interval f a b d phi ->
    exists raw, raw_lambda K N f (mkDom true b (Some a)) = Ok raw /\ shp raw = [d; d] /\
      forall k k', k < d -> k' < d ->
        get raw [k; k'] = gram_matrix N (trap_weight N (grid a b N)) (fun m => phi (grid a b N m)) k k'.
  Proof.
    intros Hab HN Hf. unfold raw_lambda. cbn [dom_cont dom_max dom_min].
    destruct (Hf (linspace a b N)) as [Hs Hg].
    { intros i Hi. cbn [linspace shp] in Hi. apply valid_cons in Hi as (k & r & -> & Hk & _).
      cbn [linspace get hd]. apply grid_in; assumption. }
    set (emb := f (TFloat (tmap (nofR K) (linspace a b N)))) in *. cbn [linspace shp app] in Hs.
    assert (Hnd : ndim emb = 2) by (unfold ndim; rewrite Hs; reflexivity). rewrite Hnd. cbn [Nat.eqb assert_ rbind].
    rewrite Hs. cbn [nth]. rewrite Nat.eqb_refl. cbn [assert_ rbind].
    destruct (eins_outer emb (tmap (nconj K) emb) N d d Hs Hs) as (t & E & Ht & Hgt).
    rewrite E. cbn [rbind]. eexists. split; [reflexivity|]. split; [unfold trapz0; cbn [shp]; rewrite Ht; reflexivity|].
    intros k k' Hk Hk'. unfold trapz0. cbn [get]. rewrite Ht. cbn [hd].
    etransitivity; [|apply (trap_weightsK N (grid a b N) (fun m => smul (phi (grid a b N m) k) (nconj K (phi (grid a b N m) k'))))].
    apply bsum_ext. intros m Hm. cbn [linspace get hd]. f_equal.
    assert (Hy : forall q, q < N -> get t [q; k; k'] = smul (phi (grid a b N q) k) (nconj K (phi (grid a b N q) k'))).
    { intros q Hq. rewrite Hgt by assumption. cbn [tmap get].
      pose proof (Hg [q] k ltac:(apply valid_1; exact Hq) Hk) as H1.
      pose proof (Hg [q] k' ltac:(apply valid_1; exact Hq) Hk') as H2. cbn [app linspace get hd] in H1, H2.
      rewrite H1, H2. reflexivity. }
    rewrite !Hy by lia. reflexivity.
  Qed.

  (** ** an embedding object: built by FixedEmbedding(f, dom), or a TrainableEmbedding over
      f and dom at any moment of its life *)
  Definition built (e : embedding K) (f : efun K) (dom : domain) : Prop :=
    fixed_embedding K f dom = Ok e \/ (es_trainable K e = true /\ es_fun K e = f /\ es_dom K e = dom).
  Lemma make_lambda_ok N f dom raw d : raw_lambda K N f dom = Ok raw -> shp raw = [d; d] ->
    make_lambda K N f dom = Ok (simplify_lamb K raw, d).
  Proof.
    intros E Hs. unfold make_lambda. rewrite E. cbn [rbind]. unfold ndim. rewrite Hs. cbn [List.length Nat.eqb assert_ rbind nth].
    rewrite Nat.eqb_refl. reflexivity.
  Qed.
  Lemma emb_forward_ok e f dom x raw d : built e f dom ->
    raw_lambda K num_points_default f dom = Ok raw -> shp raw = [d; d] ->
    exists e', emb_forward K e x = (e', Ok (f x)) /\ es_lamb K e' = Some (simplify_lamb K raw) /\
      es_fun K e' = f /\ es_dom K e' = dom /\ built e' f dom.
  Proof.
    intros Hb E Hs. pose proof (make_lambda_ok _ _ _ _ _ E Hs) as Hm. unfold emb_forward.
    destruct Hb as [Hb|(Ht & Hf & Hd)].
    - unfold fixed_embedding in Hb. rewrite Hm in Hb. cbn [rbind fst snd] in Hb. injection Hb as <-. cbn.
      eexists. split; [reflexivity|]. split; [reflexivity|]. split; [reflexivity|]. split; [reflexivity|].
      left. unfold fixed_embedding. rewrite Hm. reflexivity.
    - rewrite Ht, Hf, Hd, Hm. eexists. split; [reflexivity|]. split; [reflexivity|]. split; [reflexivity|]. split; [reflexivity|].
      right. auto.
  Qed.

  (** the site matrices the normalisation sums over *)
  Definition norm_site (d : nat) (m : pmps K) (uniform : bool) (phi : nat -> nat -> K) (t q : nat) : matK :=
    fun i j => bsum d (fun k => smul (phi q k) (letter_site (pm_core K m) uniform (pm_bias K m) t k i j)).
  Definition emb_Z (m : pmps K) (uniform : bool) (n d D M : nat) wt phi : R :=
    weighted_partition_fn wt M n D (edge_at (pm_edge K m) 0) (edge_at (pm_edge K m) 1) (norm_site d m uniform phi).

  Theorem forward_emb_full (uniform : bool) (m : pmps K) (e e' : embedding K) (x : tin K) (v : tensor K) l Lm
      (slim par : bool) (batch n d D M : nat) wt phi :
    shapes_of K uniform m n d D -> pm_emb K m = Some e -> emb_forward K e x = (e', Ok v) ->
    es_lamb K e' = Some l -> lamb_ok K (Some l) d Lm -> lamb_sum K Lm d M wt phi -> (forall q, q < M -> (0 <= wt q)%R) ->
    (exists r, tin_shp x = batch :: n :: r) -> shp v = [batch; n; d] -> 0 < n ->
    (slim = true -> pm_bias K m = None) ->
    let amp := row_amp (pm_core K m) (pm_edge K m) (pm_bias K m) uniform n d D (TFloat v) in
    let Zn := emb_Z m uniform n d D M wt phi in
    match snd (fwd K uniform m x slim par) with
    | Ok T => (0 < Zn)%R /\ shp T = [batch] /\ forall b, b < batch -> is_log (get T [b]) (abs2 (amp b) / Zn)
    | Err er => er = AssertionError /\ (Zn = 0%R \/ exists b, b < batch /\ amp b = s0)
    end /\
    let lost := row_lost (pm_core K m) (pm_edge K m) (pm_bias K m) uniform n d D (TFloat v) slim par in
    ((0 < Zn)%R -> (forall b, b < batch -> ~ lost b) -> exists T, snd (fwd K uniform m x slim par) = Ok T) /\
    ((exists b, b < batch /\ lost b) -> snd (fwd K uniform m x slim par) = Err AssertionError) /\
    (Zn = 0%R -> snd (fwd K uniform m x slim par) = Err AssertionError).
  Proof.
    intros Hsh Hemb Hfw Hl Hlok Hls Hw Hxs Hv Hn Hsl amp Zn.
    destruct (shapes_get K _ _ _ _ _ Hsh) as (Hd & HD & Hc & He & Hb).
    set (m' := with_emb K m e').
    destruct (amplitudes_ok K m' (TFloat v) uniform slim par batch n d D Hv Hc He Hb Hsl HD Hn) as (P & L & E & Ha & Hzero).
    change (row_amp (pm_core K m') (pm_edge K m') (pm_bias K m') uniform n d D (TFloat v)) with amp in Ha.
    destruct (biased_core K m' uniform n d D Hc Hb) as (c & Ec & Hcok).
    assert (HZ0 : (0 <= Zn)%R) by (apply Zw_nonneg; exact Hw).
    assert (Hnorm : forall len, len = Some (Z.of_nat n) \/ (len = None /\ uniform = false) ->
              norm_ok (get_log_norm K c (tfin K (pm_edge K m')) len (Some l)) Zn).
    { intros len Hlen.
      apply (get_log_norm_ok K c (tfin K (pm_edge K m')) len (Some l) uniform n d D Lm M wt phi _
        (edge_at (pm_edge K m) 0) (edge_at (pm_edge K m) 1) (norm_site d m uniform phi) Hd HD Hcok); try reflexivity; try assumption. }
    assert (Hf : exists lnr check, snd (fwd K uniform m x slim par) = finish K (P, L) lnr check /\
       norm_ok lnr Zn /\ forall up : xr, shp up = [batch] -> check up = true).
    { destruct Hxs as (r & Hxs). destruct uniform; cbn [fwd].
      - unfold forward_unif. rewrite Hxs. unfold embed. rewrite Hemb, Hfw. cbn [snd rbind]. fold m'.
        rewrite E. cbn [rbind]. eexists. eexists. split; [reflexivity|]. split.
        + unfold log_norm_unif. rewrite Ec. cbn [rbind]. unfold lamb_of. cbn [m' with_emb pm_emb]. rewrite Hl. cbn [rbind].
          apply Hnorm. left; reflexivity.
        + intros up Hup. rewrite Hup. apply list_eqb_refl.
      - unfold forward_fixed, embed. rewrite Hemb, Hfw. cbn [snd rbind]. fold m'. rewrite E. cbn [rbind].
        eexists. eexists. split; [reflexivity|]. split.
        + unfold log_norm_fixed. rewrite Ec. cbn [rbind]. unfold lamb_of. cbn [m' with_emb pm_emb]. rewrite Hl. cbn [rbind].
          apply Hnorm. right; split; reflexivity.
        + reflexivity. }
    destruct Hf as (lnr & check & Hfw' & Hno & Hck). rewrite Hfw'.
    pose proof (finish_ok K P L lnr check batch amp Zn Ha Hno HZ0 Hck) as HF.
    split.
    { destruct (finish K (P, L) lnr check) as [T|er]; [exact HF|].
      destruct HF as [-> [HZ|(b & Hb' & Hz & _)]]; split; eauto. }
    intros lost. destruct (finish_exact K P L lnr check batch amp Zn Ha Hno HZ0 Hck) as (H1 & H2 & H3).
    split; [|split; [|exact H3]].
    - intros HZ Hlo. apply H1; [exact HZ|]. intros b Hb'. apply (Hzero b Hb'), Hlo, Hb'.
    - intros (b & Hb' & Hz). apply H2. exists b. split; [exact Hb'|]. apply (Hzero b Hb'), Hz.
  Qed.
  Theorem forward_emb_ok (uniform : bool) (m : pmps K) (e e' : embedding K) (x : tin K) (v : tensor K) l Lm
      (slim par : bool) (batch n d D M : nat) wt phi :
    shapes_of K uniform m n d D -> pm_emb K m = Some e -> emb_forward K e x = (e', Ok v) ->
    es_lamb K e' = Some l -> lamb_ok K (Some l) d Lm -> lamb_sum K Lm d M wt phi -> (forall q, q < M -> (0 <= wt q)%R) ->
    (exists r, tin_shp x = batch :: n :: r) -> shp v = [batch; n; d] -> 0 < n ->
    (slim = true -> pm_bias K m = None) ->
    let amp := row_amp (pm_core K m) (pm_edge K m) (pm_bias K m) uniform n d D (TFloat v) in
    let Zn := emb_Z m uniform n d D M wt phi in
    match snd (fwd K uniform m x slim par) with
    | Ok T => (0 < Zn)%R /\ shp T = [batch] /\ forall b, b < batch -> is_log (get T [b]) (abs2 (amp b) / Zn)
    | Err er => er = AssertionError /\ (Zn = 0%R \/ exists b, b < batch /\ amp b = s0)
    end.
  Proof. intros H1 H2 H3 H4 H5 H6 H7 H8 H9 H10 H11. apply (forward_emb_full uniform m e e' x v l Lm slim par batch n d D M wt phi H1 H2 H3 H4 H5 H6 H7 H8 H9 H10 H11). Qed.

  (** amplitude of a row of embedded values *)
  Lemma row_amp_embedded {X} (x0 : X) core edge bias uniform n d D (v : tensor K) (xs : list X) (phi : X -> nat -> K) b :
    List.length xs = n -> (forall t k, t < n -> k < d -> get v [b; t; k] = phi (nth t xs x0) k) ->
    row_amp core edge bias uniform n d D (TFloat v) b =
    amplitude D (edge_at edge 0) (edge_at edge 1) (fun t q => vec_site d core uniform bias t (phi q)) xs.
  Proof.
    intros Hl H. cbn [row_amp]. unfold amplitude. apply sandwich_ext; try reflexivity.
    assert (G : forall ys s, s + List.length ys = n -> (forall t, t < List.length ys -> nth (s + t) xs x0 = nth t ys x0) ->
      forall i j, i < D -> j < D ->
      chain (sites D (vec_site d core uniform bias) s (map (fun t k => get v [b; t; k]) (seq s (List.length ys)))) i j =
      chain (sites D (fun t q => vec_site d core uniform bias t (phi q)) s ys) i j).
    { induction ys as [|y ys IH]; intros s Hs Hy i j Hi Hj; [reflexivity|].
      cbn [List.length seq map sites chain]. unfold mmul. apply bsum_ext. intros q Hq. f_equal.
      - unfold vec_site. f_equal. apply bsum_ext. intros k Hk. cbn [List.length] in Hs.
        rewrite H by lia. specialize (Hy 0). rewrite Nat.add_0_r in Hy. rewrite Hy by (cbn; lia). reflexivity.
      - apply IH; [cbn [List.length] in Hs; lia| |exact Hq|exact Hj]. intros t Ht. specialize (Hy (S t)).
        rewrite Nat.add_succ_r in Hy. apply Hy. cbn. lia. }
    intros i j Hi Hj. unfold row_vectors. rewrite <- Hl. apply (G xs 0); [exact Hl|reflexivity|exact Hi|exact Hj].
  Qed.
  Lemma amplitude_ext {X} D (v w : vec K) (s1 s2 : nat -> X -> matK) xs :
    (forall t x i j, t < List.length xs -> In x xs -> i < D -> j < D -> s1 t x i j = s2 t x i j) ->
    amplitude D v w s1 xs = amplitude D v w s2 xs.
  Proof.
    intros H. unfold amplitude. apply sandwich_ext; try reflexivity.
    assert (G : forall ys s, s + List.length ys = List.length xs -> (forall y, In y ys -> In y xs) ->
      forall i j, i < D -> j < D -> chain (sites D s1 s ys) i j = chain (sites D s2 s ys) i j).
    { induction ys as [|y ys IH]; intros s Hs Hy i j Hi Hj; [reflexivity|].
      cbn [sites chain]. unfold mmul. apply bsum_ext. intros q Hq. cbn [List.length] in Hs. f_equal.
      - apply H; [lia|apply Hy; left; reflexivity|exact Hi|exact Hq].
      - apply IH; [lia|intros z Hz; apply Hy; right; exact Hz|exact Hq|exact Hj]. }
    apply (G xs 0); [reflexivity|auto].
  Qed.
  (** without bias, or when the components of every embedding vector sum to 1, the
      normalisation sums over the site matrices of the forward pass *)
  Lemma norm_site_vec d m uniform phi t q i j :
    (pm_bias K m = None \/ bsum d (phi q) = s1) ->
    norm_site d m uniform phi t q i j = vec_site d (pm_core K m) uniform (pm_bias K m) t (phi q) i j.
  Proof.
    intros H. unfold norm_site, vec_site, letter_site.
    transitivity (sadd (bsum d (fun k => smul (phi q k) (entry (pm_core K m) uniform t k i j)))
                       (smul (bsum d (phi q)) (bias_at (pm_bias K m) i j))).
    - rewrite <- (bsum_mul_r K). rewrite <- (bsum_add K). apply bsum_ext. intros k _. ring.
    - destruct H as [->|H]; [cbn [bias_at]|rewrite H]; ring.
  Qed.
End E.
