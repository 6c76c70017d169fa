(** * P_TiSym: property C88 and the TI_MPS part of C83, C84 (torchmps/torchmps.py: TI_MPS).  Specification: TmSpec.v *)
From Verif Require Import Base Scalars Tensor Spec LinAlg EinsumProofs Contractables ContrSpec ContrProofs ContrReduce Utils UtilsSpec UtilsProofs
  TorchMps TmSpec TmProofs TmFinal P_Mps P_Mps2 P_Mps3 P_TiMps TmStale P_Mps4 P_MpsSym P_MpsSym2.

Section Sym.
  Variable K : cring.
  Add Ring KrTi2 : (rth K).
  Notation T := (tensor K).
  Notation matK := (mat K).
  Implicit Types x : T.

  Definition ti_site (m : ti_mps K) (v : vec K) : matK := site_matrix (t_feature m) (fun l r i => get (t_core m) [l; r; i]) (ti_bias_mat m) v.
  Lemma ti_value_pos m n px o : ti_value m n px o =
    sandwich (t_bond m) (t_bond m) (fun l => get (t_vec m) [l]) (chain (pchain K (t_bond m) n (fun s => ti_site m (px s)))) (fun r => get (t_mat m) [r; o]).
  Proof. reflexivity. Qed.
  (** Row b of one call and row b' of another agree if the two rows of feature vectors agree: other rows of the batch and earlier calls have no influence. *)
  Theorem C83_ti_rows O D F par fe std ub fb over rnd m0 m x x' B B' n g h b b' :
    ti_init K O D F par fe std ub fb over rnd = Ok m0 -> ti_trained m0 m -> shp x = [B; n; F] -> shp x' = [B'; n; F] -> 1 <= n -> b < B -> b' < B' ->
    (forall s i, s < n -> i < F -> get x' [b'; s; i] = get x [b; s; i]) ->
    exists y y', ti_forward K m (TTensor x) g = (Ok y, Some B) /\ ti_forward K m (TTensor x') h = (Ok y', Some B') /\ shp y = [B; O] /\ shp y' = [B'; O] /\
      forall o, o < O -> get y' [b'; o] = get y [b; o].
  Proof.
    intros Hi Ht Hx Hx' Hn Hb Hb' Hpx. destruct (C38_ti_forward K _ _ _ _ _ _ _ _ _ _ _ _ x B n g Hi Ht Hx Hn) as (y & E & S & G). destruct (C38_ti_forward K _ _ _ _ _ _ _ _ _ _ _ _ x' B' n h Hi Ht Hx' Hn) as (y' & E' & S' & G').
    exists y, y'. repeat (split; [assumption|]). intros o Ho. rewrite G, G' by assumption. rewrite !ti_value_pos. pose proof (ti_init_built K _ _ _ _ _ _ _ _ _ _ _ _ Hi Ht) as Hbu.
    unfold sandwich. apply bsum_ext. intros i Hii. apply bsum_ext. intros j Hj. f_equal. f_equal. apply pchain_ext; [|exact Hii]. intros t a c Htt _ _. unfold ti_site, site_matrix. f_equal.
    apply bsum_ext. intros k Hk. rewrite (tb_feat K _ _ _ _ _ _ _ Hbu) in Hk. rewrite Hpx by assumption. reflexivity.
  Qed.
  (** the output is linear in the terminal matrix: mat_2 = a mat_0 + b mat_1 *)
  Theorem C84_ti_linear_ends O D F par fe std ub fb over rnd mi m0 m1 m2 x B n g a b :
    ti_init K O D F par fe std ub fb over rnd = Ok mi -> ti_trained mi m0 -> ti_trained mi m1 -> ti_trained mi m2 -> shp x = [B; n; F] -> 1 <= n ->
    (forall l r i, l < D -> r < D -> i < F -> get (t_core m1) [l; r; i] = get (t_core m0) [l; r; i] /\ get (t_core m2) [l; r; i] = get (t_core m0) [l; r; i]) ->
    (forall l r, l < D -> r < D -> ti_bias_mat m1 l r = ti_bias_mat m0 l r /\ ti_bias_mat m2 l r = ti_bias_mat m0 l r) ->
    ((forall l, l < D -> get (t_vec m1) [l] = get (t_vec m0) [l] /\ get (t_vec m2) [l] = get (t_vec m0) [l]) /\
     (forall r o, r < D -> o < O -> get (t_mat m2) [r; o] = sadd (smul a (get (t_mat m0) [r; o])) (smul b (get (t_mat m1) [r; o])))) \/
    ((forall r o, r < D -> o < O -> get (t_mat m1) [r; o] = get (t_mat m0) [r; o] /\ get (t_mat m2) [r; o] = get (t_mat m0) [r; o]) /\
     (forall l, l < D -> get (t_vec m2) [l] = sadd (smul a (get (t_vec m0) [l])) (smul b (get (t_vec m1) [l])))) ->
    exists y0 y1 y2, ti_forward K m0 (TTensor x) g = (Ok y0, Some B) /\ ti_forward K m1 (TTensor x) g = (Ok y1, Some B) /\ ti_forward K m2 (TTensor x) g = (Ok y2, Some B) /\
      forall c o, c < B -> o < O -> get y2 [c; o] = sadd (smul a (get y0 [c; o])) (smul b (get y1 [c; o])).
  Proof.
    intros Hi T0 T1 T2 Hx Hn Hc Hb Hends.
    destruct (C38_ti_forward K _ _ _ _ _ _ _ _ _ _ _ _ x B n g Hi T0 Hx Hn) as (y0 & E0 & S0 & G0). destruct (C38_ti_forward K _ _ _ _ _ _ _ _ _ _ _ _ x B n g Hi T1 Hx Hn) as (y1 & E1 & S1 & G1).
    destruct (C38_ti_forward K _ _ _ _ _ _ _ _ _ _ _ _ x B n g Hi T2 Hx Hn) as (y2 & E2 & S2 & G2). exists y0, y1, y2. repeat (split; [assumption|]). intros c o Hcc Ho. rewrite G0, G1, G2 by assumption.
    pose proof (ti_init_built K _ _ _ _ _ _ _ _ _ _ _ _ Hi T0) as B0. pose proof (ti_init_built K _ _ _ _ _ _ _ _ _ _ _ _ Hi T1) as B1. pose proof (ti_init_built K _ _ _ _ _ _ _ _ _ _ _ _ Hi T2) as B2.
    rewrite !ti_value_pos, (tb_bond K _ _ _ _ _ _ _ B0), (tb_bond K _ _ _ _ _ _ _ B1), (tb_bond K _ _ _ _ _ _ _ B2). set (px := fun s i : nat => get x [c; s; i]).
    assert (Hs : forall t i j, t < n -> i < D -> j < D -> ti_site m1 (px t) i j = ti_site m0 (px t) i j /\ ti_site m2 (px t) i j = ti_site m0 (px t) i j).
    { intros t i j _ Hii Hj. unfold ti_site, site_matrix. rewrite (tb_feat K _ _ _ _ _ _ _ B0), (tb_feat K _ _ _ _ _ _ _ B1), (tb_feat K _ _ _ _ _ _ _ B2). destruct (Hb i j Hii Hj) as [-> ->].
      split; f_equal; apply bsum_ext; intros k Hk; destruct (Hc i j k Hii Hj Hk) as [Q1 Q2]; rewrite ?Q1, ?Q2; reflexivity. }
    set (X := chain (pchain K D n (fun s => ti_site m0 (px s)))).
    assert (X1 : forall i j, i < D -> chain (pchain K D n (fun s => ti_site m1 (px s))) i j = X i j) by (intros i j Hii; apply pchain_ext; [intros; apply Hs; assumption|exact Hii]).
    assert (X2 : forall i j, i < D -> chain (pchain K D n (fun s => ti_site m2 (px s))) i j = X i j) by (intros i j Hii; apply pchain_ext; [intros; apply Hs; assumption|exact Hii]).
    unfold sandwich. rewrite <- !bsum_mul_l, <- bsum_add. apply bsum_ext. intros i Hii. rewrite <- !bsum_mul_l, <- bsum_add. apply bsum_ext. intros j Hj. rewrite X1, X2 by exact Hii.
    destruct Hends as [[Hv Hm]|[Hm Hv]].
    - destruct (Hv i Hii) as [-> ->]. rewrite Hm by assumption. change (chain (pchain K D n (fun s => ti_site m0 (fun i0 : nat => get x [c; s; i0]))) i j) with (X i j). ring.
    - destruct (Hm j o Hj Ho) as [-> ->]. rewrite Hv by assumption. change (chain (pchain K D n (fun s => ti_site m0 (fun i0 : nat => get x [c; s; i0]))) i j) with (X i j). ring.
  Qed.
  (** ** C88: a uniform gauge transformation (core' = G core H, vec' = vec H, mat' = G mat, with H G = 1) does not change the output; D' may differ from D *)
  Definition ti_gauged (D D' F O : nat) (G H : matK) (m m' : ti_mps K) : Prop :=
    (forall l r i, l < D' -> r < D' -> i < F -> get (t_core m') [l; r; i] = mmul D G (mmul D (fun l r => get (t_core m) [l; r; i]) H) l r) /\
    (forall l r, l < D' -> r < D' -> ti_bias_mat m' l r = mmul D G (mmul D (ti_bias_mat m) H) l r) /\
    (forall l, l < D' -> get (t_vec m') [l] = vmul D (fun l => get (t_vec m) [l]) H l) /\
    (forall r o, r < D' -> o < O -> get (t_mat m') [r; o] = mulv D G (fun r => get (t_mat m) [r; o]) r).
  Theorem C88_ti_gauge O D D' F par par' fe fe' std std' ub ub' fb fb' over over' rnd rnd' mi mi' m m' (G H : matK) x B n g h :
    ti_init K O D F par fe std ub fb over rnd = Ok mi -> ti_trained mi m -> ti_init K O D' F par' fe' std' ub' fb' over' rnd' = Ok mi' -> ti_trained mi' m' ->
    (forall i j, i < D -> j < D -> mmul D' H G i j = delta i j) -> ti_gauged D D' F O G H m m' -> shp x = [B; n; F] -> 1 <= n ->
    exists y y', ti_forward K m (TTensor x) g = (Ok y, Some B) /\ ti_forward K m' (TTensor x) h = (Ok y', Some B) /\ shp y = [B; O] /\ shp y' = [B; O] /\
      forall b o, b < B -> o < O -> get y' [b; o] = get y [b; o].
  Proof.
    intros Hi Ht Hi' Ht' HG (Gc & Gb & Gv & Gm) Hx Hn.
    destruct (C38_ti_forward K _ _ _ _ _ _ _ _ _ _ _ _ x B n g Hi Ht Hx Hn) as (y & E & S & Gy). destruct (C38_ti_forward K _ _ _ _ _ _ _ _ _ _ _ _ x B n h Hi' Ht' Hx Hn) as (y' & E' & S' & Gy').
    exists y, y'. repeat (split; [assumption|]). intros b o Hb Ho. rewrite Gy, Gy' by assumption.
    pose proof (ti_init_built K _ _ _ _ _ _ _ _ _ _ _ _ Hi Ht) as B0. pose proof (ti_init_built K _ _ _ _ _ _ _ _ _ _ _ _ Hi' Ht') as B1.
    rewrite !ti_value_pos, (tb_bond K _ _ _ _ _ _ _ B0), (tb_bond K _ _ _ _ _ _ _ B1). set (px := fun s i : nat => get x [b; s; i]).
    assert (Hs : forall t i j, t < n -> i < D' -> j < D' -> ti_site m' (px t) i j = mmul D G (mmul D (ti_site m (px t)) H) i j).
    { intros t i j _ Hii Hj. unfold ti_site. rewrite (tb_feat K _ _ _ _ _ _ _ B0), (tb_feat K _ _ _ _ _ _ _ B1). apply site_gauged; [intros k Hk; apply Gc; assumption|apply Gb; assumption]. }
    set (X := chain (pchain K D n (fun s => ti_site m (px s)))).
    assert (X1 : forall i j, i < D' -> j < D' -> chain (pchain K D' n (fun s => ti_site m' (px s))) i j = mmul D G (mmul D X H) i j).
    { intros i j Hii Hj. refine (pchain_gauge K D D' (fun _ => G) (fun _ => H) n _ _ 0 _ _ _ i j Hii Hj); [intros t a c _; apply HG|exact Hs|lia]. }
    unfold sandwich.
    transitivity (bsum D' (fun i => bsum D' (fun j => smul (vmul D (fun l => get (t_vec m) [l]) H i) (smul (mmul D G (mmul D X H) i j) (mulv D G (fun r => get (t_mat m) [r; o]) j))))).
    { apply bsum_ext. intros i Hii. apply bsum_ext. intros j Hj. rewrite Gv, X1, Gm by assumption. reflexivity. }
    set (v := fun l => get (t_vec m) [l]). set (w := fun r => get (t_mat m) [r; o]).
    (* sum_ij (sum_a v_a H_ai) (sum_bc G_ib X_bc H_cj') ... *)
    assert (Q1 : forall c, c < D -> bsum D' (fun i => smul (vmul D v H i) (G i c)) = v c).
    { intros c Hc. unfold vmul. transitivity (bsum D (fun a => smul (v a) (mmul D' H G a c))).
      - transitivity (bsum D' (fun i => bsum D (fun a => smul (v a) (smul (H a i) (G i c))))).
        + apply bsum_ext. intros i Hii. rewrite <- bsum_mul_r. apply bsum_ext. intros a Ha. ring.
        + rewrite bsum_swap. apply bsum_ext. intros a Ha. apply bsum_mul_l.
      - transitivity (bsum D (fun a => smul (v a) (delta a c))); [apply bsum_ext; intros a Ha; rewrite HG by assumption; reflexivity|]. apply (bsum_delta_r K D c v Hc). }
    assert (Q2 : forall c, c < D -> bsum D' (fun j => smul (H c j) (mulv D G w j)) = w c).
    { intros c Hc. unfold mulv. transitivity (bsum D (fun a => smul (mmul D' H G c a) (w a))).
      - transitivity (bsum D' (fun j => bsum D (fun a => smul (smul (H c j) (G j a)) (w a)))).
        + apply bsum_ext. intros j Hj. rewrite <- bsum_mul_l. apply bsum_ext. intros a Ha. ring.
        + rewrite bsum_swap. apply bsum_ext. intros a Ha. apply bsum_mul_r.
      - transitivity (bsum D (fun a => smul (delta c a) (w a))); [apply bsum_ext; intros a Ha; rewrite HG by assumption; reflexivity|]. apply (bsum_delta_l K D c w Hc). }
    transitivity (bsum D (fun c => bsum D (fun e => smul (bsum D' (fun i => smul (vmul D v H i) (G i c))) (smul (X c e) (bsum D' (fun j => smul (H e j) (mulv D G w j))))))).
    - transitivity (bsum D' (fun i => bsum D' (fun j => bsum D (fun c => bsum D (fun e => smul (smul (vmul D v H i) (G i c)) (smul (X c e) (smul (H e j) (mulv D G w j)))))))).
      + apply bsum_ext. intros i Hii. apply bsum_ext. intros j Hj. unfold mmul. rewrite <- bsum_mul_r, <- bsum_mul_l. apply bsum_ext. intros c Hc. rewrite <- bsum_mul_l, <- bsum_mul_r, <- bsum_mul_l. apply bsum_ext. intros e He. ring.
      + transitivity (bsum D (fun c => bsum D' (fun i => bsum D' (fun j => bsum D (fun e => smul (smul (vmul D v H i) (G i c)) (smul (X c e) (smul (H e j) (mulv D G w j)))))))).
        { transitivity (bsum D' (fun i => bsum D (fun c => bsum D' (fun j => bsum D (fun e => smul (smul (vmul D v H i) (G i c)) (smul (X c e) (smul (H e j) (mulv D G w j)))))))); [apply bsum_ext; intros i Hii; apply bsum_swap|apply bsum_swap]. }
        apply bsum_ext. intros c Hc.
        transitivity (bsum D (fun e => bsum D' (fun i => bsum D' (fun j => smul (smul (vmul D v H i) (G i c)) (smul (X c e) (smul (H e j) (mulv D G w j))))))).
        { transitivity (bsum D' (fun i => bsum D (fun e => bsum D' (fun j => smul (smul (vmul D v H i) (G i c)) (smul (X c e) (smul (H e j) (mulv D G w j))))))); [apply bsum_ext; intros i Hii; apply bsum_swap|apply bsum_swap]. }
        apply bsum_ext. intros e He. rewrite <- bsum_mul_r. apply bsum_ext. intros i Hii. rewrite <- !bsum_mul_l. reflexivity.
    - apply bsum_ext. intros c Hc. apply bsum_ext. intros e He. rewrite Q1, Q2 by assumption. reflexivity.
  Qed.
End Sym.

(** ** Concrete cases: 2 outputs, bond dimension 2, G = [[1, 3], [0, 1]] *)
Section Examples.
  Definition ti_model (ub : bool) (c : nat -> nat -> nat -> Z) (v : nat -> Z) (bi : nat -> nat -> Z) (t : nat -> nat -> Z) : ti_mps Z_cring :=
    mkTi Z_cring 2 2 2 false ub false (mkT [2; 2; 2] (fun i => c (nth 0 i 0) (nth 1 i 0) (nth 2 i 0))) (mkT [2] (fun i => v (nth 0 i 0))) (mkT [2; 2] (fun i => t (nth 0 i 0) (nth 1 i 0)))
      (if ub then Some (mkT [2; 2] (fun i => bi (nth 0 i 0) (nth 1 i 0))) else None) None.
  Lemma ti_model_ok ub c v bi t : exists m0, ti_init Z_cring 2 2 2 false true (1%Z : Z_cring) ub false (fun _ z => z) tick = Ok m0 /\ ti_trained m0 (ti_model ub c v bi t).
  Proof. destruct ub; (eexists; split; [reflexivity|]); (split; [reflexivity|split; [reflexivity|split; [reflexivity|split; [|reflexivity]]]]); cbn; auto. split; [reflexivity|discriminate]. Qed.
  Definition c0 (l r i : nat) : Z := Z.of_nat (1 + l + 2 * r + 4 * i).
  Definition v0 (l : nat) : Z := Z.of_nat (2 + l).
  Definition b0 (l r : nat) : Z := Z.of_nat (l + 3 * r).
  Definition t0 (r o : nat) : Z := Z.of_nat (1 + r + 5 * o).
  Definition G3 (i j : nat) : Z := if i =? j then 1%Z else if i =? 0 then 3%Z else 0%Z.
  Definition H3 (i j : nat) : Z := if i =? j then 1%Z else if i =? 0 then (-3)%Z else 0%Z.
  Example C88_hyps_met : (forall i j, i < 2 -> j < 2 -> mmul (K := Z_ops) 2 H3 G3 i j = delta (K := Z_ops) i j) /\
    ti_gauged Z_cring 2 2 2 2 G3 H3 (ti_model true c0 v0 b0 t0)
      (ti_model true (fun l r i => mmul (K := Z_ops) 2 G3 (mmul (K := Z_ops) 2 (fun l r => c0 l r i) H3) l r) (vmul (K := Z_ops) 2 v0 H3) (mmul (K := Z_ops) 2 G3 (mmul (K := Z_ops) 2 b0 H3))
         (fun r o => mulv (K := Z_ops) 2 G3 (fun r => t0 r o) r)) /\ mmul (K := Z_ops) 2 G3 (mmul (K := Z_ops) 2 b0 H3) 0 1 <> b0 0 1.
  Proof.
    split; [intros i j Hi Hj; destruct i as [|[|i]], j as [|[|j]]; try lia; reflexivity|]. split; [|vm_compute; discriminate].
    split; [|split; [|split]]; intros; reflexivity.
  Qed.
  Example C83_ti_hyps_met : exists (x x' : tensor Z_cring), shp x = [2; 3; 2] /\ shp x' = [1; 3; 2] /\ (forall s i, s < 3 -> i < 2 -> get x' [0; s; i] = get x [1; s; i]) /\ get x [0; 0; 0] <> get x [1; 0; 0].
  Proof. exists (pix 2 3 2), (mkT [1; 3; 2] (fun i => get (pix 2 3 2) (1 :: tl i))). repeat split. vm_compute. discriminate. Qed.
  Example C84_ti_hyps_met : (forall l r, ti_bias_mat (ti_model true c0 v0 b0 t0) l r = b0 l r) /\
    forall r o, get (t_mat (ti_model true c0 v0 b0 (fun r o => (7 * t0 r o)%Z))) [r; o] = (3 * get (t_mat (ti_model true c0 v0 b0 t0)) [r; o] + 2 * get (t_mat (ti_model true c0 v0 b0 (fun r o => (2 * t0 r o)%Z))) [r; o])%Z.
  Proof. split; [reflexivity|]. intros r o. cbn [ti_model t_mat get nth]. lia. Qed.
End Examples.
Print Assumptions C83_ti_rows.
Print Assumptions C84_ti_linear_ends.
Print Assumptions C88_ti_gauge.
