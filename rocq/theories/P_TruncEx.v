(** * P_TruncEx: a flip that really truncates (C107).
    Bond dimension 2, feature dimension 1, one output, periodic.  An optimizer has set every core to the
    matrix diag(1, 1/20); svd_cutoff is 1/10, so every flip drops the singular value 1/20 of each pair. *)
From Coq Require Import Reals Lra Permutation.
From Verif Require Import Base Scalars Tensor Spec LinAlg Contractables Utils UtilsSpec UtilsProofs SvdProofs P_Svd TorchMps TmSpec TmProofs TmFinal Adaptive AdMerge AdKinds AdSpec AdUnmerge AdFlip AdState AdCall AdHealthy P_Ad AdExact P_AdExact Crash AdCrash P_AdEx FrobNorm P_Trunc.

Definition dval (i : list nat) : R := match list_sum i with 0 => 1%R | 1 => 0%R | _ => (1/20)%R end.
Definition diag_mod (m : module K) : module K :=
  match m with
  | MergedInput t => MergedInput (@mkT K (shp t) (fun i => dval (tl i)))
  | _ => set_tensor m (@mkT K (shp (mod_tensor m)) dval)
  end.
Definition diag_model (m : ad_mps) : ad_mps :=
  mkAd (a_cfg m) (mkReg (map diag_mod (g_list0 (a_reg m))) (map diag_mod (g_list1 (a_reg m))) (g_offset (a_reg m)) (g_counter (a_reg m)) (g_threshold (a_reg m)) (g_cutoff (a_reg m))) (a_bonds m) (a_svs m).
Definition svd_d : tensor R_ops := mkT [2] (fun i => if nth 0 i 0 =? 0 then 1%R else (1/20)%R).
Definition matd : tensor R_ops := mkT [2; 2] dval.
Definition diag_svd : tensor R_ops -> tensor R_ops * tensor R_ops * tensor R_ops := fun _ => (ex_I, svd_d, ex_I).

Lemma diag_retrained l : Forall (no_region K) l -> Forall2 retrained l (map diag_mod l).
Proof. induction 1 as [|m l Hm H IH]; [constructor|]. cbn [map]. constructor; [|exact IH]. destruct m; [destruct Hm|..]; constructor; reflexivity. Qed.

Definition diag_pair (t : tensor R_ops) (p : pair_type) : Prop := shp t = map (sizes 2 1 1) (axes p) /\ forall i, get t i = dval i.
Lemma diag_matrix p t : diag_pair t p -> matrix_of (sizes 2 1 1) t (axes p) (remove ascii_dec "u"%char (axes1 p)) (remove ascii_dec "u"%char (axes2 p)) matd.
Proof.
  intros [_ Hg]. split; [destruct p; reflexivity|]. intros sg Hsg. rewrite Hg. unfold matd. cbn [get].
  assert (B : forall x, In x (axes p) -> sg x < sizes 2 1 1 x) by exact Hsg.
  destruct p; cbn in B |- *.
  - pose proof (B "i"%char ltac:(tauto)) as Hi. pose proof (B "j"%char ltac:(tauto)) as Hj. cbn in Hi, Hj.
    assert (Ei : sg "i"%char = 0) by lia. assert (Ej : sg "j"%char = 0) by lia. rewrite Ei, Ej. unfold dval. f_equal. cbn [list_sum fold_right]. rewrite !Nat.mul_1_r, !Nat.add_0_r. reflexivity.
  - pose proof (B "i"%char ltac:(tauto)) as Hi. pose proof (B "o"%char ltac:(tauto)) as Hj. cbn in Hi, Hj.
    assert (Ei : sg "i"%char = 0) by lia. assert (Ej : sg "o"%char = 0) by lia. rewrite Ei, Ej. unfold dval.
    assert (E : list_sum [sg "r"%char * 1; sg "l"%char * 1 + 0] = list_sum [0; sg "l"%char; sg "r"%char; 0]) by (cbn [list_sum fold_right]; lia). cbn in E |- *.
    rewrite !Nat.mul_1_r, !Nat.add_0_r in *. rewrite (Nat.add_comm (sg "r"%char)). reflexivity.
  - pose proof (B "i"%char ltac:(tauto)) as Hi. pose proof (B "o"%char ltac:(tauto)) as Hj. cbn in Hi, Hj.
    assert (Ei : sg "i"%char = 0) by lia. assert (Ej : sg "o"%char = 0) by lia. rewrite Ei, Ej. unfold dval. cbn [list_sum fold_right]. rewrite !Nat.mul_1_r, !Nat.add_0_r. reflexivity.
Qed.
Lemma diag_call p t : diag_pair t p -> svd_call diag_svd t (sizes 2 1 1) (split_string p) (axes p) (axes1 p) (axes2 p) "u" ex_I svd_d ex_I.
Proof.
  intros H. pose proof (diag_matrix p t H) as HM. constructor; [apply unit_labels|apply H|destruct p; reflexivity..|].
  intros A HA. split; [reflexivity|].
  assert (V1 : volume (map (sizes 2 1 1) (remove ascii_dec "u"%char (axes1 p))) = 2) by (destruct p; reflexivity).
  assert (V2 : volume (map (sizes 2 1 1) (remove ascii_dec "u"%char (axes2 p))) = 2) by (destruct p; reflexivity).
  rewrite V1, V2.
  assert (EA : forall i j, i < 2 -> j < 2 -> get A [i; j] = get matd [i; j]).
  { intros i j Hi Hj. destruct HA as [_ HA]. destruct HM as [_ HM].
    destruct p; [set (sg := fun x => if Ascii.eqb x "l"%char then i else if Ascii.eqb x "r"%char then j else 0)
                |set (sg := fun x => if Ascii.eqb x "r"%char then i else if Ascii.eqb x "l"%char then j else 0)
                |set (sg := fun x => if Ascii.eqb x "l"%char then i else if Ascii.eqb x "r"%char then j else 0)].
    all: match type of HA with forall sg, within_sizes ?a sg ?b -> _ => assert (W : within_sizes a sg b) by (intros x Hx; cbn in Hx; repeat (destruct Hx as [<-|Hx]; [cbn; lia|]); destruct Hx) end.
    all: specialize (HA sg W); specialize (HM sg W); rewrite <- HM in HA; cbn in HA; rewrite ?Nat.mul_1_r, ?Nat.add_0_r in HA; exact HA. }
  constructor.
  - intros a b Ha Hb. cbn in Ha, Hb. destruct a as [|[|a]]; [| |lia]; (destruct b as [|[|b]]; [| |lia]); cbn; lra.
  - intros a b Ha Hb. cbn in Ha, Hb. destruct a as [|[|a]]; [| |lia]; (destruct b as [|[|b]]; [| |lia]); cbn; lra.
  - intros a Ha. cbn in Ha. destruct a as [|[|a]]; [| |lia]; cbn; lra.
  - intros a b Hab Hb. cbn in Hb. destruct a as [|[|a]]; [| |lia]; (destruct b as [|[|b]]; [| |lia]); try lia; cbn; lra.
  - intros i j Hi Hj. rewrite EA by assumption. destruct i as [|[|i]]; [| |lia]; (destruct j as [|[|j]]; [| |lia]); cbn; lra.
Qed.
Lemma diag_spectrum p t S : diag_pair t p -> spectrum diag_svd 2 1 1 p t S -> S = svd_d.
Proof. intros H (U & V & C). destruct (call_svd _ _ _ _ _ _ _ _ _ _ _ C matd (diag_matrix p t H)) as [E _]. injection E as _ E _. symmetry. exact E. Qed.
Lemma diag_pairs l : Forall (wf K 2 1 1) l -> forall s p t, pair_at (map diag_mod l) s = Some (p, t) -> diag_pair t p.
Proof.
  induction 1 as [|m l Wm W IH]; intros s p t E; [discriminate E|]. cbn [map pair_at] in E.
  destruct (s <? mod_core_len (diag_mod m)); [|eapply IH; exact E].
  destruct m as [u ub b|u|u|u|u lo]; cbn [diag_mod set_tensor mod_tensor] in E; try discriminate E.
  - destruct (s mod 2 =? 0); [|discriminate E]. injection E as <- <-. destruct Wm as (n & _ & Hu). split; [exact (f_equal (@tl nat) Hu)|]. intros i. unfold sel0. reflexivity.
  - destruct (s =? 0); [|discriminate E]. injection E as <- <-. split; [destruct lo; exact Wm|]. intros i. reflexivity.
Qed.
Lemma diag_parts l : Forall (wf K 2 1 1) l -> forall p t, In (Some p, t) (parts (map diag_mod l)) -> diag_pair t p.
Proof.
  intros W p t Hin. apply in_flat_map in Hin as (m & Hm & Hin). apply in_map_iff in Hm as (u & <- & Hu). rewrite Forall_forall in W. specialize (W u Hu).
  destruct u as [u ub b|u|u|u|u lo]; cbn [diag_mod set_tensor mod_tensor] in Hin.
  - destruct Hin.
  - destruct Hin as [E|[]]. discriminate E.
  - destruct Hin as [E|[]]. discriminate E.
  - apply in_map_iff in Hin as (s & E & Hs). injection E as <- <-. destruct W as (n & _ & Hn). split; [exact (f_equal (@tl nat) Hn)|]. intros i. reflexivity.
  - destruct Hin as [E|[]]. injection E as <- <-. split; [destruct lo; exact W|]. intros i. reflexivity.
Qed.
Lemma diag_drop p t : diag_pair t p -> drop_norm diag_svd 2 1 1 (1/10) (Some p, t) (1/20).
Proof.
  intros H. exists svd_d. split; [exists ex_I, ex_I; apply diag_call; exact H|].
  assert (E : dropped (1/10) 2 (nsv 2 1 1 p) (fun k => get svd_d [k]) = (1/20 * (1/20))%R).
  { unfold dropped. assert (En : nsv 2 1 1 p = 2) by (destruct p; reflexivity). cbn [fst]. rewrite En. assert (C : count_ge (1/10) (fun k => get svd_d [k]) (Nat.min 2 2) = 1).
    { cbn. destruct (Rle_dec (1/10) 1); [|lra]. destruct (Rle_dec (1/10) (1/20)); [lra|]. reflexivity. }
    rewrite C. cbn. lra. }
  cbn [fst snd]. rewrite E, sqrt_square by lra. reflexivity.
Qed.
Lemma diag_healthy c l : (c <= 1)%R -> Forall (wf K 2 1 1) l -> healthy diag_svd 2 1 1 c (map diag_mod l).
Proof.
  intros Hc W. split.
  - intros s p t E. pose proof (diag_pairs l W s p t E) as Hu. exists svd_d. split; [exists ex_I, ex_I; apply diag_call; exact Hu|exact Hc].
  - intros m t Hi Hm. apply in_map_iff in Hi as (m' & Em & Hi). rewrite Forall_forall in W. specialize (W m' Hi).
    destruct m' as [u ub b|u|u|u|u lo]; cbn [diag_mod set_tensor mod_tensor] in Em; subst m; destruct Hm as [Hm|Hm]; try discriminate Hm; injection Hm as <-;
    exists [0; 0; 0]; (split; [cbn [shp]; rewrite W; repeat constructor|cbn; lra]).
Qed.

Section Diag.
  Variables (per par : bool) (std : R) (rnd : nat -> list nat -> R) (m0 : ad_mps).
  Hypothesis Hinit : ad_init 6 1 2 1 per par None PNone std (1/10) 0 rnd = Ok m0.
  Lemma diag_inv0 : inv 6 1 2 1 3 m0.
  Proof. apply (inv0 6 1 2 1 per par None PNone std (1/10)%R 0%Z rnd m0 Hinit); lia. Qed.
  Lemma diag_noreg o : o < 2 -> Forall (no_region K) (g_list (a_reg m0) o).
  Proof.
    intros Ho. pose proof diag_inv0 as I0. eapply Forall_impl; [|apply (merged_no_region 2 1 1 o 3 3 _ Ho); [lia|apply (gr_list _ _ _ _ _ _ _ (i_reg _ _ _ _ _ _ I0) Ho)]].
    intros m Hm. destruct m; exact Hm.
  Qed.
  Lemma diag_after : after diag_svd m0 (diag_model m0).
  Proof. eapply After_S; [apply After_0|]. apply Ev_train; apply diag_retrained; [apply (diag_noreg 0)|apply (diag_noreg 1)]; lia. Qed.
  Lemma diag_active : g_active (a_reg (diag_model m0)) = map diag_mod (g_active (a_reg m0)).
  Proof. unfold g_active, g_list; cbn; destruct (_ =? 0); reflexivity. Qed.
  Lemma diag_input : embedded_input (diag_model m0) (@mkT K [2; 6; 1] (fun _ => 1%R)) = Ok (@mkT K [2; 6; 1] (fun _ => 1%R)).
  Proof. exact (unit_input 6 per par None std (1/10)%R 0%Z rnd m0 Hinit ltac:(lia)). Qed.
  Lemma diag_due : flip_due (diag_model m0).
  Proof. exact (unit_due 6 per par None std (1/10)%R 0%Z rnd m0 Hinit ltac:(lia) ltac:(lia)). Qed.
  Lemma diag_offset : offset (diag_model m0) = 0.
  Proof. exact (unit_offset 6 per par None std (1/10)%R 0%Z rnd m0 Hinit ltac:(lia)). Qed.
  Lemma diag_counter : g_counter (a_reg (diag_model m0)) = 0%Z.
  Proof. destruct (start 6 1 2 1 per par None PNone std (1/10)%R 0%Z rnd m0 Hinit ltac:(lia) ltac:(lia)) as (_ & A & _). exact A. Qed.
End Diag.
(** all hypotheses of C107_flip, C107_bound and C107_cutoff are met, and every pair loses a singular value *)
Theorem C107_met : exists m0 x e y g1 m1 y' g2 m2, ad_init 6 1 2 1 true true None PNone (1/10) (1/10) 0 (fun _ _ => 0%R) = Ok m0 /\
  let m := diag_model m0 in
  history diag_svd m0 m /\ embedded_input m x = Ok e /\ flip_due m /\ healthy diag_svd 2 1 1 (1/10) (g_active (a_reg m)) /\ (g_counter (a_reg m) < 1)%Z /\
  (forall p t S, In (Some p, t) (parts (g_active (a_reg m))) -> spectrum diag_svd 2 1 1 p t S -> forall k, 2 <= k -> k < nsv 2 1 1 p -> (get S [k] < 1/10)%R) /\
  (forall p t, In (Some p, t) (parts (g_active (a_reg m))) -> drop_norm diag_svd 2 1 1 (1/10) (Some p, t) (1/20)) /\
  ad_forward diag_svd m x None = ((Ok y, g1), Some m1) /\
  ad_forward diag_svd (with_reg m (mkReg (g_list0 (a_reg m)) (g_list1 (a_reg m)) (g_offset (a_reg m)) (g_counter (a_reg m)) 1 (g_cutoff (a_reg m)))) x None = ((Ok y', g2), Some m2).
Proof.
  destruct (C49_two_inputs_partial 6 1 2 1 true true None PNone (1/10)%R (1/10)%R 0%Z (fun _ _ => 0%R) 3 ltac:(lia) eq_refl eq_refl) as (m0 & E).
  pose proof (diag_after _ _ _ _ _ E) as Ha. pose proof (after_history _ _ _ Ha) as Hh. pose proof (diag_input _ _ _ _ _ E) as Hi. pose proof (diag_due _ _ _ _ _ E) as Hd. pose proof (diag_offset _ _ _ _ _ E) as Ho. pose proof (diag_counter _ _ _ _ _ E) as Hc.
  pose proof (gr_active _ _ _ _ _ _ (i_reg _ _ _ _ _ _ (diag_inv0 _ _ _ _ _ E))) as [W _].
  assert (A1 : healthy diag_svd 2 1 1 (1/10) (g_active (a_reg (diag_model m0)))) by (rewrite diag_active; apply diag_healthy; [lra|exact W]).
  pose proof (C48_exact diag_svd 6 1 2 1 true true None PNone _ _ _ _ m0 (diag_model m0) E ltac:(lia) ltac:(lia) Hh ltac:(lia) ltac:(lia) ltac:(lra) _ _ None 2 true Hi eq_refl (conj (fun _ => Hd) (fun _ => eq_refl)) (fun _ => A1)) as Q.
  rewrite Ho in Q. change (call_outcome 6 (label_number 6 None) 0 true None 2) with (Rows 2) in Q. destruct Q as (y & m1 & Q & _).
  assert (Iw : inv 6 1 2 1 3 (diag_model m0)) by exact (Im diag_svd 6 1 2 1 true true None PNone _ _ _ _ m0 (diag_model m0) E ltac:(lia) ltac:(lia) Hh).
  set (m := diag_model m0) in *. set (w := with_reg m (mkReg (g_list0 (a_reg m)) (g_list1 (a_reg m)) (g_offset (a_reg m)) (g_counter (a_reg m)) 1 (g_cutoff (a_reg m)))).
  assert (I2 : inv 6 1 2 1 3 w) by (pose proof Iw as [A1' A2 A3 A4 A5 A6 [B1 B2 B3] A8 A9]; constructor; try assumption; constructor; assumption).
  assert (Nf : ~ flip_due w) by (unfold flip_due, w; cbn [with_reg a_reg g_threshold g_counter]; rewrite Hc; lia).
  pose proof (call_no_flip_exact diag_svd 6 1 2 1 3 ltac:(lia) ltac:(lia) w _ _ None 2 I2 Hi eq_refl Nf) as Q'. change (g_offset (a_reg w)) with (offset m) in Q'. rewrite Ho in Q'.
  change (contracted 3 0 None 2) with (Rows 2) in Q'. destruct Q' as (y' & Q' & _).
  exists m0, (@mkT K [2; 6; 1] (fun _ => 1%R)), (@mkT K [2; 6; 1] (fun _ => 1%R)), y, (Some 2), m1, y', (Some 2), (counted w 2). split; [exact E|]. cbv zeta. fold m. split; [exact Hh|]. split; [exact Hi|]. split; [exact Hd|]. split; [exact A1|].
  split; [rewrite Hc; lia|]. split.
  - intros p t S _ _ k H1 H3. exfalso. destruct p; cbn in H3; lia.
  - split; [|split; [exact Q|exact Q']]. intros p t Hin. apply diag_drop. unfold m in Hin. rewrite diag_active in Hin. exact (diag_parts _ W p t Hin).
Qed.
Print Assumptions C107_flip. Print Assumptions C107_bound. Print Assumptions C107_cutoff. Print Assumptions C107_met.
