(** * P_AdEx: concrete adaptive models that meet the hypotheses of the theorems in P_Ad.
    Bond dimension 2, feature dimension 1, one output.  An optimizer has set every core to 0 except for
    its first entry, which is 1; then every pair of merged cores is the matrix diag(1, 0), and the
    decomposition I diag(1,0) I is right for each of them. *)
From Coq Require Import Reals Lra Permutation.
From Verif Require P_Mps.
From Verif Require Import Base Scalars Tensor Spec Contractables Utils UtilsSpec UtilsProofs SvdProofs P_Svd TorchMps TmSpec TmProofs TmFinal Adaptive AdMerge AdKinds AdSpec AdUnmerge AdFlip AdState AdCall AdHealthy P_Ad.

Notation K := R_cring.
Definition first_one (i : list nat) : R := if forallb (Nat.eqb 0) i then 1%R else 0%R.
Definition unit_mod (m : module K) : module K :=
  match m with
  | MergedInput t => MergedInput (@mkT K (shp t) (fun i => first_one (tl i)))
  | _ => set_tensor m (@mkT K (shp (mod_tensor m)) first_one)
  end.
Definition unit_model (m : ad_mps) : ad_mps :=
  mkAd (a_cfg m) (mkReg (map unit_mod (g_list0 (a_reg m))) (map unit_mod (g_list1 (a_reg m))) (g_offset (a_reg m)) (g_counter (a_reg m)) (g_threshold (a_reg m)) (g_cutoff (a_reg m))) (a_bonds m) (a_svs m).
Definition sv10 : tensor R_ops := mkT [2] (fun i => if nth 0 i 0 =? 0 then 1%R else 0%R).
Definition mat10 : tensor R_ops := mkT [2; 2] first_one.
Definition const_svd : tensor R_ops -> tensor R_ops * tensor R_ops * tensor R_ops := fun _ => (ex_I, sv10, ex_I).

Lemma unit_retrained l : Forall (no_region K) l -> Forall2 retrained l (map unit_mod l).
Proof. induction 1 as [|m l Hm H IH]; [constructor|]. cbn [map]. constructor; [|exact IH]. destruct m; [destruct Hm|..]; constructor; reflexivity. Qed.

Definition unit_pair (t : tensor R_ops) (p : pair_type) : Prop := shp t = map (sizes 2 1 1) (axes p) /\ forall i, get t i = first_one i.
Lemma unit_matrix p t : unit_pair t p -> matrix_of (sizes 2 1 1) t (axes p) (remove ascii_dec "u"%char (axes1 p)) (remove ascii_dec "u"%char (axes2 p)) mat10.
Proof.
  intros [_ Hg]. split; [destruct p; reflexivity|]. intros sg Hsg. rewrite Hg. unfold mat10. cbn [get].
  assert (B : forall x, In x (axes p) -> sg x < sizes 2 1 1 x) by exact Hsg.
  destruct p; cbn in B |- *.
  - pose proof (B "i"%char ltac:(tauto)) as Hi. pose proof (B "j"%char ltac:(tauto)) as Hj. cbn in Hi, Hj.
    assert (Ei : sg "i"%char = 0) by lia. assert (Ej : sg "j"%char = 0) by lia. rewrite Ei, Ej. unfold first_one. cbn [forallb]. rewrite !Nat.mul_1_r, !Nat.add_0_r. destruct (sg "l"%char), (sg "r"%char); reflexivity.
  - pose proof (B "i"%char ltac:(tauto)) as Hi. pose proof (B "o"%char ltac:(tauto)) as Hj. cbn in Hi, Hj.
    assert (Ei : sg "i"%char = 0) by lia. assert (Ej : sg "o"%char = 0) by lia. rewrite Ei, Ej. unfold first_one. cbn [forallb]. rewrite !Nat.mul_1_r, !Nat.add_0_r. destruct (sg "l"%char), (sg "r"%char); reflexivity.
  - pose proof (B "i"%char ltac:(tauto)) as Hi. pose proof (B "o"%char ltac:(tauto)) as Hj. cbn in Hi, Hj.
    assert (Ei : sg "i"%char = 0) by lia. assert (Ej : sg "o"%char = 0) by lia. rewrite Ei, Ej. unfold first_one. cbn [forallb]. rewrite !Nat.mul_1_r, !Nat.add_0_r. destruct (sg "l"%char), (sg "r"%char); reflexivity.
Qed.
Lemma unit_labels p : svd_labels (split_string p) (axes p) (axes1 p) (axes2 p) "u".
Proof.
  destruct p; constructor; try (apply nodupb_NoDup; reflexivity); try reflexivity; try (cbn; tauto).
  all: try (intros x Hx; cbn in Hx; repeat (destruct Hx as [<-|Hx]; [cbv; lia|]); destruct Hx).
  all: try (cbn; intros X; repeat (destruct X as [X|X]; [discriminate|]); destruct X).
  all: apply NoDup_Permutation; [apply nodupb_NoDup; reflexivity..|intros x; cbn; tauto].
Qed.
Lemma unit_call p t : unit_pair t p -> svd_call const_svd t (sizes 2 1 1) (split_string p) (axes p) (axes1 p) (axes2 p) "u" ex_I sv10 ex_I.
Proof.
  intros H. pose proof (unit_matrix p t H) as HM. constructor; [apply unit_labels|apply H|destruct p; reflexivity..|].
  intros A HA. split; [reflexivity|].
  assert (V1 : volume (map (sizes 2 1 1) (remove ascii_dec "u"%char (axes1 p))) = 2) by (destruct p; reflexivity).
  assert (V2 : volume (map (sizes 2 1 1) (remove ascii_dec "u"%char (axes2 p))) = 2) by (destruct p; reflexivity).
  rewrite V1, V2.
  assert (EA : forall i j, i < 2 -> j < 2 -> get A [i; j] = get mat10 [i; j]).
  { intros i j Hi Hj. destruct HA as [_ HA]. destruct HM as [_ HM].
    destruct p; [set (sg := fun x => if Ascii.eqb x "l"%char then i else if Ascii.eqb x "r"%char then j else 0)
                |set (sg := fun x => if Ascii.eqb x "r"%char then i else if Ascii.eqb x "l"%char then j else 0)
                |set (sg := fun x => if Ascii.eqb x "l"%char then i else if Ascii.eqb x "r"%char then j else 0)].
    all: match type of HA with forall sg, within_sizes ?a sg ?b -> _ => assert (W : within_sizes a sg b) by (intros x Hx; cbn in Hx; repeat (destruct Hx as [<-|Hx]; [cbn; lia|]); destruct Hx) end.
    all: specialize (HA sg W); specialize (HM sg W); rewrite <- HM in HA; cbn in HA; rewrite ?Nat.mul_1_r, ?Nat.add_0_r in HA; exact HA. }
  constructor.
  - intros a b Ha Hb. cbn in Ha, Hb. destruct a as [|[|a]]; [| |lia]; (destruct b as [|[|b]]; [| |lia]); cbn; lra.
  - intros a b Ha Hb. cbn in Ha, Hb. destruct a as [|[|a]]; [| |lia]; (destruct b as [|[|b]]; [| |lia]); cbn; lra.
  - intros a Ha. cbn in Ha. destruct a as [|[|a]]; [| |lia]; cbn; lra.
  - intros a b Hab Hb. cbn in Hb. destruct a as [|[|a]]; [| |lia]; (destruct b as [|[|b]]; [| |lia]); try lia; cbn; lra.
  - intros i j Hi Hj. rewrite EA by assumption. destruct i as [|[|i]]; [| |lia]; (destruct j as [|[|j]]; [| |lia]); cbn; lra.
Qed.
Lemma unit_spectrum p t S : unit_pair t p -> spectrum const_svd 2 1 1 p t S -> S = sv10.
Proof. intros H (U & V & C). destruct (call_svd _ _ _ _ _ _ _ _ _ _ _ C mat10 (unit_matrix p t H)) as [E _]. injection E as _ E _. symmetry. exact E. Qed.

Lemma unit_pairs l : Forall (wf K 2 1 1) l -> forall s p t, pair_at (map unit_mod l) s = Some (p, t) -> unit_pair t p.
Proof.
  induction 1 as [|m l Wm W IH]; intros s p t E; [discriminate E|]. cbn [map pair_at] in E.
  destruct (s <? mod_core_len (unit_mod m)); [|eapply IH; exact E].
  destruct m as [u ub b|u|u|u|u lo]; cbn [unit_mod set_tensor mod_tensor] in E; try discriminate E.
  - destruct (s mod 2 =? 0); [|discriminate E]. injection E as <- <-. destruct Wm as (n & _ & Hu). split; [exact (f_equal (@tl nat) Hu)|]. intros i. unfold sel0. reflexivity.
  - destruct (s =? 0); [|discriminate E]. injection E as <- <-. split; [destruct lo; exact Wm|]. intros i. reflexivity.
Qed.
Lemma unit_healthy c l : (c <= 1)%R -> Forall (wf K 2 1 1) l -> healthy const_svd 2 1 1 c (map unit_mod l).
Proof.
  intros Hc W. split.
  - intros s p t E. pose proof (unit_pairs l W s p t E) as Hu. exists sv10. split; [exists ex_I, ex_I; apply unit_call; exact Hu|exact Hc].
  - intros m t Hi Hm. apply in_map_iff in Hi as (m' & Em & Hi). rewrite Forall_forall in W. specialize (W m' Hi).
    destruct m' as [u ub b|u|u|u|u lo]; cbn [unit_mod set_tensor mod_tensor] in Em; subst m; destruct Hm as [Hm|Hm]; try discriminate Hm; injection Hm as <-;
    exists [0; 0; 0]; (split; [cbn [shp]; rewrite W; repeat constructor|cbn; lra]).
Qed.
Lemma unit_lossless c l : (c <= 1)%R -> Forall (wf K 2 1 1) l -> lossless const_svd 2 1 1 c (map unit_mod l).
Proof.
  intros Hc W s p t S E Sp k Hk Hd. rewrite (unit_spectrum p t S (unit_pairs l W s p t E) Sp) in *.
  destruct k as [|[|k]]; cbn in *; [destruct Hd; [lia|lra]|reflexivity|destruct p; cbn in Hk; lia].
Qed.

Section Unit.
  Variables (N : nat) (per par : bool) (label : option Z) (std cutoff : R) (thr : Z) (rnd : nat -> list nat -> R) (m0 : ad_mps).
  Hypotheses (Hinit : ad_init N 1 2 1 per par label PNone std cutoff thr rnd = Ok m0) (HN : 1 < N) (Hcut : (0 < cutoff <= 1)%R).
  Lemma unit_inv0 : inv N 1 2 1 (label_number N label) m0.
  Proof. apply (inv0 N 1 2 1 per par label PNone std cutoff thr rnd m0 Hinit); lia. Qed.
  Lemma unit_noreg o : o < 2 -> Forall (no_region K) (g_list (a_reg m0) o).
  Proof.
    intros Ho. pose proof unit_inv0 as I0. eapply Forall_impl; [|apply (merged_no_region 2 1 1 o (label_number N label) (N - label_number N label) _ Ho); [|apply (gr_list _ _ _ _ _ _ _ (i_reg _ _ _ _ _ _ I0) Ho)]].
    - intros m Hm. destruct m; exact Hm.
    - pose proof (i_le _ _ _ _ _ _ I0). lia.
  Qed.
  Lemma unit_after : after const_svd m0 (unit_model m0).
  Proof.
    eapply After_S; [apply After_0|]. apply Ev_train; apply unit_retrained.
    - apply (unit_noreg 0). lia.
    - apply (unit_noreg 1). lia.
  Qed.
  Lemma unit_active : healthy const_svd 2 1 1 cutoff (g_active (a_reg (unit_model m0))) /\ lossless const_svd 2 1 1 cutoff (g_active (a_reg (unit_model m0))).
  Proof.
    assert (E : g_active (a_reg (unit_model m0)) = map unit_mod (g_active (a_reg m0))) by (unfold g_active, g_list; cbn; destruct (_ =? 0); reflexivity).
    pose proof (gr_active _ _ _ _ _ _ (i_reg _ _ _ _ _ _ unit_inv0)) as [W _]. rewrite E. split; [apply unit_healthy|apply unit_lossless]; try exact W; lra.
  Qed.
  (** a batch of two inputs *)
  Lemma unit_input : embedded_input (unit_model m0) (@mkT K [2; N; 1] (fun _ => 1%R)) = Ok (@mkT K [2; N; 1] (fun _ => 1%R)).
  Proof.
    destruct (init_inv N 1 2 1 per par label PNone std cutoff thr rnd m0 Hinit HN ltac:(lia)) as (mods & _ & _ & I0 & _ & _ & _ & _ & _ & _ & _ & _ & Ep & _).
    unfold embedded_input. cbn [unit_model a_cfg]. rewrite Ep. cbn [route path_true rbind]. unfold mps_embed. cbn [ndim shp List.length Nat.eqb orb assert_ rbind size nth].
    rewrite (i_in _ _ _ _ _ _ I0), Nat.eqb_refl, (i_feat _ _ _ _ _ _ I0). reflexivity.
  Qed.
  Lemma unit_due : (thr <= 0)%Z -> flip_due (unit_model m0).
  Proof.
    destruct (start N 1 2 1 per par label PNone std cutoff thr rnd m0 Hinit ltac:(lia) ltac:(lia)) as (_ & A & B & _).
    intros H. unfold flip_due. cbn [unit_model a_reg g_threshold g_counter]. lia.
  Qed.
  Lemma unit_offset : offset (unit_model m0) = 0.
  Proof. destruct (start N 1 2 1 per par label PNone std cutoff thr rnd m0 Hinit ltac:(lia) ltac:(lia)) as (A & _). exact A. Qed.
End Unit.

(** input_dim = 4, default label_site: the first flip fails (C48_two_sites_refuted) *)
Theorem C48_default_four : exists m0 x, ad_init 4 1 2 1 false true None PNone (1/10) (1/10) 0 (fun _ _ => 0%R) = Ok m0 /\
  after const_svd m0 (unit_model m0) /\ ad_forward const_svd (unit_model m0) x None = ((Err AssertionError, None), None).
Proof.
  destruct (C49_two_inputs_partial 4 1 2 1 false true None PNone (1/10)%R (1/10)%R 0%Z (fun _ _ => 0%R) 2 ltac:(lia) eq_refl eq_refl) as (m0 & E).
  exists m0, (@mkT K [2; 4; 1] (fun _ => 1%R)). split; [exact E|]. assert (Hc : (0 < 1/10 <= 1)%R) by lra. split; [apply (unit_after 4 _ _ _ _ _ _ _ m0 E); lia|].
  refine (C48_two_sites_refuted const_svd 4 1 2 1 false true None PNone _ _ _ _ m0 (unit_model m0) E _ _ (unit_after 4 _ _ _ _ _ _ _ m0 E _) _ _ _ _ _ None (unit_input 4 _ _ _ _ _ _ _ m0 E _) _ _ _); try lia; try lra.
  - apply (unit_due 4 _ _ _ _ _ _ _ m0 E); lia.
  - apply (unit_active 4 _ _ _ _ _ _ _ m0 E ltac:(lia) Hc).
  - right. rewrite (unit_offset 4 _ _ _ _ _ _ _ m0 E) by lia. split; reflexivity.
Qed.
(** input_dim = 6, default label_site 3: the call succeeds (C48_no_crash_partial, C48_flip_partial), the flip is lossless (C51_lossless_flip) and reports the bonds (C53_flip_partial) *)
Theorem C51_default_six : exists m0 x y m', ad_init 6 1 2 1 false true None PNone (1/10) (1/10) 0 (fun _ _ => 0%R) = Ok m0 /\
  after const_svd m0 (unit_model m0) /\ healthy const_svd 2 1 1 (1/10) (g_active (a_reg (unit_model m0))) /\ lossless const_svd 2 1 1 (1/10) (g_active (a_reg (unit_model m0))) /\
  flip_due (unit_model m0) /\ (exists e, embedded_input (unit_model m0) x = Ok e) /\
  ad_forward const_svd (unit_model m0) x None = ((Ok y, Some 2), Some m') /\ offset m' = 1.
Proof.
  destruct (C49_two_inputs_partial 6 1 2 1 false true None PNone (1/10)%R (1/10)%R 0%Z (fun _ _ => 0%R) 3 ltac:(lia) eq_refl eq_refl) as (m0 & E).
  assert (Hc : (0 < 1/10 <= 1)%R) by lra. pose proof (unit_active 6 _ _ _ _ _ _ _ m0 E ltac:(lia) Hc) as [A1 A2].
  pose proof (unit_after 6 _ _ _ _ _ _ _ m0 E ltac:(lia)) as Ha. pose proof (unit_input 6 _ _ _ _ _ _ _ m0 E ltac:(lia)) as Hi. pose proof (unit_due 6 _ _ _ _ _ _ _ m0 E ltac:(lia) ltac:(lia)) as Hd.
  destruct (C48_flip_partial const_svd 6 1 2 1 false true None PNone _ _ _ _ m0 (unit_model m0) E ltac:(lia) ltac:(lia) Ha ltac:(lia) ltac:(lia) ltac:(lra) _ _ None 2 Hi eq_refl ltac:(left; cbn; lia) Hd A1) as (y & m' & F & _ & G).
  { cbn. lia. }
  exists m0, (@mkT K [2; 6; 1] (fun _ => 1%R)), y, m'. split; [exact E|]. split; [exact Ha|]. split; [exact A1|]. split; [exact A2|]. split; [exact Hd|]. split; [eexists; exact Hi|].
  split; [exact F|]. rewrite G, (unit_offset 6 _ _ _ _ _ _ _ m0 E) by lia. reflexivity.
Qed.
(** C50: models without bias exist, and an optimizer may leave them as they are *)
Example C50_example : exists m0, mps_init K 6 1 2 1 false true None PNone (1/10)%R false (fun _ _ => 0%R) = Ok m0 /\ trained m0 m0 /\ label_number 6 None = 3.
Proof.
  destruct (P_Mps.C34_constructor K 6 1 2 1 false true None PNone (1/10)%R false (fun _ _ => 0%R) Logic.I) as (m & E & T & _); [left; left; reflexivity|].
  exists m. split; [exact E|]. split; [exact T|reflexivity].
Qed.
Print Assumptions C49_two_inputs_partial.
Print Assumptions C49_one_input_refuted.
Print Assumptions C50_merge_preserves.
Print Assumptions C50_same_as_unmerged.
Print Assumptions C55_parameters.
Print Assumptions C55_call.
Print Assumptions C53_bounds.
Print Assumptions C53_unchanged.
Print Assumptions C48_no_crash_partial.
Print Assumptions C48_two_sites_refuted.
Print Assumptions C48_flip_partial.
Print Assumptions C51_lossless_flip.
Print Assumptions C53_flip_partial.
Print Assumptions C52_schedule.
Print Assumptions C52_flip_iff.
