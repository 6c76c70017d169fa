(** * Stable2: which logarithmic scale slim_eval_fun reports (supports P_Stable). *)
From Coq Require Import Ring_theory Ring Reals Lra Permutation.
From Verif Require Import Base Scalars Tensor Utils2 MpsBase Spec MatSpec LinAlg Utils2Proofs MatseqProofs SlimProofs Stable.

Section Stable2.
  Variable K : numfield.
  Add Ring KrSt2 : (rth K).
  Notation xt := (tensor (xnum K)).
  Notation xr := (tensor xreal).
  Notation XK := (xn_ops K).
  Notation matK := (mat K).
  Notation ofR := (nofR K).

  Definition vabs (D : nat) (C : vec K) : R := bsum (S := R_ops) D (fun j => nabs K (C j)).
  Lemma vabs_scale D (C X : vec K) t : (0 <= t)%R ->
    (forall j, j < D -> smul (C j) (ofR t) = X j) -> vabs D X = (vabs D C * t)%R.
  Proof.
    intros Ht H. unfold vabs.
    change (bsum (S := R_ops) D (fun j => nabs K (X j)) =
      @smul R_cring (bsum (S := R_cring) D (fun j => nabs K (C j))) t).
    rewrite <- (bsum_mul_r R_cring). apply (bsum_ext (S := R_ops)). intros j Hj.
    rewrite <- H by assumption. rewrite nabs_mul, nabs_of, Rabs_pos_eq by exact Ht. reflexivity.
  Qed.
  Lemma div_norm D (q : nat -> xnum K) (C : vec K) r t : 0 < D -> (0 < t)%R ->
    r = xdivc (bsum (S := xr_ops) D (fun j => xabs K (q j))) t ->
    (forall j, j < D -> xdivr K (q j) r = Fin (C j)) -> vabs D C = t.
  Proof.
    intros HD Ht Hr H. set (Q := fun j => fval K (q j)).
    assert (HX : forall j, j < D -> q j = Fin (Q j) /\ xdivr K (Fin (Q j)) r = Fin (C j)).
    { intros j Hj. pose proof (H j Hj) as E. unfold Q. destruct (q j) as [a|]; [|cbn in E; discriminate E].
      split; [reflexivity|exact E]. }
    rewrite (bsum_xrfin D _ (fun j => nabs K (Q j))), xdivc_fin in Hr;
      [|lra|intros j Hj; destruct (HX j Hj) as [-> _]; reflexivity].
    fold (vabs D Q) in Hr. set (x := (vabs D Q / t)%R) in *.
    assert (Hx : x <> 0%R).
    { destruct (HX 0 HD) as [_ E]. rewrite Hr in E. cbn in E. destruct (Req_EM_T x 0); [discriminate|assumption]. }
    assert (Hpos : (0 <= vabs D Q)%R) by (apply bsumR_nonneg; intros; apply nabs_pos).
    assert (Hx0 : (0 < x)%R).
    { assert (0 <= x)%R by (unfold x, Rdiv; apply Rmult_le_pos; [exact Hpos|left; apply Rinv_0_lt_compat, Ht]). lra. }
    rewrite (vabs_scale D Q C (/ x)).
    - assert (Ha : vabs D Q <> 0%R) by (intros Hz; apply Hx; unfold x; rewrite Hz; unfold Rdiv; ring).
      unfold x. field. split; lra.
    - left. apply Rinv_0_lt_compat, Hx0.
    - intros j Hj. destruct (HX j Hj) as [_ E]. rewrite Hr in E. cbn in E.
      destruct (Req_EM_T x 0); [contradiction|]. injection E as E. exact E.
  Qed.
  Lemma slim_step_norm (P M : xt) (L : xr) b0 batch D P' L' b C :
    b0 = batch \/ b0 = 1 -> 0 < D ->
    shp P = [b0; 1; D] -> shp M = [batch; D; D] ->
    slim_step K D (L, P) M = Ok (L', P') -> b < batch ->
    (forall j, j < D -> get P' [b; 0; j] = Fin (C j)) -> vabs D C = INR D.
  Proof.
    intros Hb0 HD HP HM E Hb HC. unfold slim_step in E.
    destruct (matmul_spec (S := XK) P M [b0] [batch] [batch] 1 D D HP HM) as (Q & EQ & HQ & _).
    { unfold bcast. simpl. unfold bdim. destruct Hb0 as [->| ->]; [rewrite Nat.eqb_refl; reflexivity|].
      destruct (Nat.eqb_spec 1 batch); [subst; reflexivity|reflexivity]. }
    rewrite EQ in E. cbn [rbind] in E.
    set (r := tdivc (sum1 (S := xr_ops) (tabs K Q)) (INR D)) in *.
    assert (Hr : shp r = [batch] ++ [1; 1]).
    { change (shp r) with (droplast 1 (shp Q) ++ [1]). rewrite HQ. reflexivity. }
    destruct (tadd L _) as [L1|]; cbn [rbind] in E; [|discriminate].
    destruct (tzip_scale2 (xdivr K) Q r [batch] 1 D HQ Hr) as (P1 & EP & _ & GP).
    unfold tdivr in E. rewrite EP in E. cbn [rbind] in E. injection E as <- <-.
    apply (div_norm D (fun j => get Q [b; 0; j]) C (get r [b; 0; 0]) (INR D) HD).
    - apply lt_0_INR, HD.
    - transitivity (xdivc (bsum (S := xr_ops) (dimE 0 (shp Q)) (fun j => xabs K (get Q [b; 0; j]))) (INR D));
          [reflexivity|]. rewrite HQ. reflexivity.
    - intros j Hj. rewrite <- (HC j Hj). symmetry. apply (GP [b] 0 j); [apply valid_1, Hb|lia|exact Hj].
  Qed.
  Lemma slim_loop_norm batch D n (v : vec K) (P0 : xt) (step : nat -> res xt) (F : nat -> nat -> matK) P L b C :
    0 < D -> 0 < n -> shp P0 = [1; 1; D] -> (forall j, j < D -> get P0 [0; 0; j] = Fin (v j)) ->
    (forall t, t < n -> exists M, step t = Ok M /\ shp M = [batch; D; D] /\
        forall b i j, b < batch -> i < D -> j < D -> get M [b; i; j] = Fin (F b t i j)) ->
    rfold (fun st t => let* mats := step t in slim_step K D st mats)
            (tconst [batch] (XFin 0), P0) (seq 0 n) = Ok (L, P) -> b < batch ->
    (forall j, j < D -> get P [b; 0; j] = Fin (C j)) -> vabs D C = INR D.
  Proof.
    intros HD Hn HP0 Hv Hstep E Hb HC. destruct n as [|n]; [lia|].
    destruct (slim_loop_ok K batch D n v P0 step F HD HP0 Hv) as (P1 & L1 & b0 & E1 & Hb0 & HP1 & HL1 & _);
      [intros t Ht; apply Hstep; lia|].
    rewrite seq_S, rfold_app, E1 in E. cbn [rbind plus rfold] in E.
    destruct (Hstep n ltac:(lia)) as (M & EM & HM & GM). rewrite EM in E. cbn [rbind] in E.
    destruct (slim_step K D (L1, P1) M) as [[L2 P2]|] eqn:Es; cbn [rbind] in E; [|discriminate]. injection E as -> ->.
    apply (slim_step_norm P1 M L1 b0 batch D P L b C); try assumption. tauto.
  Qed.
  Theorem slim_scale (x : tin K) (core bound : tensor K) uniform batch n d D P L b :
    input_ok K x batch n d -> core_ok K core uniform n d D -> shp bound = [2; D] -> 0 < D -> 0 < n ->
    slim_eval_fun K (tin_fin' K x) (tmap Fin core) (tmap Fin bound) = Ok (P, L) -> b < batch ->
    let u := lprod K D n (fun i => get bound [0; i]) (site_mat K core uniform x d b) in
    (exists j, j < D /\ u j <> s0) -> get L [b] = XFin (ln (vabs D u / INR D)).
  Proof.
    intros Hx Hc Hbd HD Hn E0 Hb. cbv zeta. intros (j0 & Hj0 & Hnz). revert E0. unfold slim_eval_fun.
    assert (Hsh : tin_shp (tin_trans01 K (tin_fin' K x)) = match x with TLong _ => [n; batch] | TFloat _ => [n; batch; d] end).
    { destruct x; cbn in *; [destruct Hx as [Hs _]; rewrite Hs|rewrite Hx]; reflexivity. }
    assert (Hl : List.length (tin_shp (tin_fin' K x)) <? 2 = false).
    { destruct x; cbn in *; [destruct Hx as [Hs _]; rewrite Hs|rewrite Hx]; reflexivity. }
    rewrite Hl. cbv zeta. rewrite Hsh.
    assert (Hcd : ndim (tmap (Fin (A := K)) core) = if uniform then 3 else 4).
    { unfold ndim. cbn [tmap shp]. rewrite Hc. destruct uniform; reflexivity. }
    assert (Hc0 : dimE 0 (shp (tmap (Fin (A := K)) core)) = D).
    { cbn [tmap shp]. rewrite Hc. destruct uniform; reflexivity. }
    assert (Hbs : shp (tmap (Fin (A := K)) bound) = [2; D]) by exact Hbd.
    rewrite Hcd, Hc0.
    do 4 (destruct (assert_ _) as [[]|]; cbn [rbind]; [|discriminate]).
    destruct (assert_ _) as [[]|]; cbn [rbind]; [|discriminate].
    assert (E1 : nth 0 (match x with TLong _ => [n; batch] | TFloat _ => [n; batch; d] end) 0 = n) by (destruct x; reflexivity).
    assert (E2 : nth 1 (match x with TLong _ => [n; batch] | TFloat _ => [n; batch; d] end) 0 = batch) by (destruct x; reflexivity).
    rewrite E1, E2.
    assert (E4 : (if uniform then 3 else 4) =? 3 = uniform) by (destruct uniform; reflexivity).
    rewrite E4.
    assert (E7 : (List.length (match x with TLong _ => [n; batch] | TFloat _ => [n; batch; d] end) =? 3)
                 = match x with TLong _ => false | TFloat _ => true end) by (destruct x; reflexivity).
    rewrite E7.
    destruct (if uniform then Ok tt else _) as [[]|]; cbn [rbind]; [|discriminate].
    match goal with |- (let* _ := ?c in _) = _ -> _ => destruct c as [[]|]; cbn [rbind]; [|discriminate] end.
    set (step := fun t => slim_slice K (tin_sel0 K (tin_trans01 K (tin_fin' K x)) t)
                   (if uniform then tmap Fin core else sel0 (tmap Fin core) t)
                   (match x with TLong _ => false | TFloat _ => true end)).
    assert (Hp0 : shp (unsq_front 2 (sel0 (tmap (Fin (A := K)) bound) 0)) = [1; 1; D]).
    { cbn [unsq_front sel0 shp tmap]. rewrite Hbd. reflexivity. }
    assert (Hst : forall t, t < n -> exists M, step t = Ok M /\ shp M = [batch; D; D] /\
        forall b i j, b < batch -> i < D -> j < D -> get M [b; i; j] = Fin (site_mat K core uniform x d b t i j)).
    { intros t Ht. destruct (slim_slice_ok K x core uniform batch n d D t Hx Hc Ht) as (M & EM & HM & GM).
      exists M. auto. }
    destruct (slim_loop_ok K batch D n (fun i => get bound [0; i]) (unsq_front 2 (sel0 (tmap Fin bound) 0))
       step (site_mat K core uniform x d) HD Hp0 (fun j _ => eq_refl) Hst) as (P1 & L1 & b0 & E & Hb0 & HP & HL & H).
    pose proof (fun C => slim_loop_norm batch D n (fun i => get bound [0; i]) (unsq_front 2 (sel0 (tmap Fin bound) 0))
       step (site_mat K core uniform x d) P1 L1 b C HD Hn Hp0 (fun j _ => eq_refl) Hst E Hb) as Hno.
    unfold step in E. rewrite E. cbn [rbind].
    destruct (matmul _ _) as [T|]; cbn [rbind]; [|discriminate].
    destruct (assert_ _) as [[]|]; cbn [rbind]; [|discriminate]. intros [= _ <-].
    assert (b0 = batch) by (destruct Hb0 as [?|[_ ?]]; [assumption|lia]). subst b0.
    destruct (H b Hb) as [[(s & C & Hs & HC & HX)|[_ Hz]] _]; [|elim Hnz; apply Hz, Hj0].
    rewrite Hs. f_equal. rewrite (vabs_scale D C _ (exp s)); [|left; apply exp_pos|exact HX].
    rewrite (Hno C).
    - assert (0 < INR D)%R by (apply lt_0_INR, HD).
      replace (INR D * exp s / INR D)%R with (exp s) by (field; lra). symmetry. apply ln_exp.
    - intros j Hj. specialize (HC j Hj). rewrite bidx_valid in HC by exact Hb. exact HC.
  Qed.
End Stable2.
