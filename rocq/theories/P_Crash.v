(** * P_Crash: C72.  Adaptive models after an exception that was caught. *)
From Coq Require Import Reals Lra.
From Verif Require Import Base Scalars Tensor Spec LinAlg Contractables ContrProofs Utils UtilsSpec SvdProofs P_Svd TorchMps TmSpec TmProofs TmFinal Adaptive AdMerge AdKinds AdSpec AdUnmerge AdFlip AdState AdCall AdHealthy P_Ad AdExact Crash AdCrash P_AdExact.

(** *** specification *)
(** two models compute the same function and keep the same records: the same active cores, bond_list and sv_list *)
Definition same_model (m m' : ad_mps) : Prop :=
  a_cfg m' = a_cfg m /\ g_active (a_reg m') = g_active (a_reg m) /\ offset m' = offset m /\ a_bonds m' = a_bonds m /\ a_svs m' = a_svs m.
(** a history in which all pairs of merged cores can be split whenever a call is made *)
Inductive sound svd (D F O : nat) (cutoff : R) (m0 : ad_mps) : ad_mps -> Prop :=
| Sound_0 : sound svd D F O cutoff m0 m0
| Sound_S m m' : sound svd D F O cutoff m0 m -> healthy svd D F O cutoff (g_active (a_reg m)) -> step svd m m' -> sound svd D F O cutoff m0 m'.

Section C72.
  Notation K := R_cring.
  Notation T := (tensor R_ops).
  Variable svd : T -> T * T * T.
  Variables (N O D F : nat) (per par : bool) (label : option Z) (path : mpath) (std cutoff : R) (thr : Z) (rnd : nat -> list nat -> R) (m0 m : ad_mps).
  Hypotheses (Hinit : ad_init N O D F per par label path std cutoff thr rnd = Ok m0) (HN : 1 <= N) (HD : 0 < D).
  Hypothesis Hist : history svd m0 m.
  Notation lab := (label_number N label).
  Notation active m := (g_active (a_reg m)).
  Let HI : inv N O D F lab m. Proof. eapply Im; eassumption. Qed.
  Let H2 : 1 < N. Proof. eapply P_AdExact.H2; eassumption. Qed.

  (** an input that is rejected changes nothing *)
  Theorem C72_rejected_partial x ex g : embedded_input m x = Err ex -> ad_call svd m x g = ((Err ex, g), Some m).
  Proof. intros E. unfold ad_call, ad_forward. fold (embedded_input m x). rewrite E. reflexivity. Qed.
  (** an exception in the contraction, when no flip is due, changes nothing but the counter *)
  Theorem C72_contraction_partial x e g ex g' r m' : embedded_input m x = Ok e -> ~ flip_due m -> ad_call svd m x g = ((Err ex, g'), r) -> r = Some m' ->
    same_model m m' /\ g_counter (a_reg m') = (g_counter (a_reg m) + Z.of_nat (size 0 e))%Z.
  Proof.
    intros He Hf E ->. pose proof (call_no_flip_exact svd N O D F lab HD H2 m x e g _ HI He eq_refl Hf) as Q.
    destruct (contracted lab (g_offset (a_reg m)) g (size 0 e)) as [n|ex'].
    - destruct Q as (y & Q & _). unfold ad_call in E. rewrite Q in E. discriminate E.
    - destruct Q as (g1 & Q). unfold ad_call in E. rewrite Q in E. injection E as _ _ <-. repeat split.
  Qed.
  (** an exception while the cores are split (for example when all singular values are below the cutoff) changes nothing *)
  Theorem C72_split_partial x e g ex : embedded_input m x = Ok e -> flip_due m -> unmerge_mods svd (g_cutoff (a_reg m)) (active m) = Err ex -> ex <> NotANumber ->
    ad_call svd m x g = ((Err ex, g), Some m).
  Proof.
    intros He Hf E Hn. unfold flip_due in Hf. apply Z.leb_le in Hf.
    assert (Es : region_step svd (a_reg m) (size 0 e) = Err ex) by (unfold region_step; rewrite Hf, E; reflexivity).
    unfold ad_call, ad_forward, ad_crash. fold (embedded_input m x). rewrite He, Es. unfold flip_crash. rewrite E.
    assert (X : (match ex with NotANumber => None | _ => Some (a_reg m) end) = Some (a_reg m)) by (destruct ex; congruence). rewrite X. destruct m. reflexivity.
  Qed.

  Hypotheses (HF : 0 < F) (HO : 0 < O) (Hcut : (0 < cutoff)%R).
  Let HC : g_cutoff (a_reg m) = cutoff. Proof. eapply Cm; eassumption. Qed.
  Let HP : m_periodic (a_cfg m) = per. Proof. eapply Pm; eassumption. Qed.
  (** the flips that fail: two sites on one side of the output *)
  Definition fails (off : nat) : Prop := (lab = 2 /\ off = 1) \/ (N - lab = 2 /\ (off + lab) mod 2 = 0).
  (** the exception of such a flip makes the other list of cores the active one, with the values it had before the last flip *)
  Theorem C72_flip_refuted x e g : embedded_input m x = Ok e -> flip_due m -> healthy svd D F O cutoff (active m) -> fails (offset m) ->
    exists m', ad_call svd m x g = ((Err AssertionError, g), Some m') /\ offset m' = 1 - offset m /\ active m' = g_list (a_reg m) (1 - offset m) /\
      a_cfg m' = a_cfg m /\ a_bonds m' = a_bonds m /\ a_svs m' = a_svs m /\ g_counter (a_reg m') = g_counter (a_reg m) /\ g_threshold (a_reg m') = g_threshold (a_reg m) /\ flip_due m' /\
      Forall2 rescaled (active m) (g_list (a_reg m') (offset m)).
  Proof.
    intros He Hf Hh Hb. rewrite <- HC in Hh. pose proof Hcut as Hc. rewrite <- HC in Hc. apply bad_iff in Hb.
    destruct (bad_crash svd N O D F lab HD HF HO H2 m x e g HI Hc He Hf Hh Hb) as (m' & E & E1 & E2 & E3 & E4 & E5 & E6 & E7).
    pose proof (gr_off _ _ _ _ _ _ (i_reg _ _ _ _ _ _ HI)) as Ho. assert (Eo : (offset m + 1) mod 2 = 1 - offset m) by (unfold offset in *; destruct (g_offset (a_reg m)) as [|[|o]]; [reflexivity|reflexivity|lia]).
    assert (Ht : g_threshold (a_reg m') = g_threshold (a_reg m)).
    { destruct (step_inv svd N O D F lab m m' HD H2 HI) as (_ & Ht & _); [eapply Step_call; exact E|exact Ht]. }
    fold (offset m) (offset m') in *. rewrite Eo in E4, E7.
    exists m'. split; [exact E|]. split; [exact E4|]. split; [exact E7|]. do 3 (split; [assumption|]). split; [exact E5|]. split; [exact Ht|]. split.
    - unfold flip_due in *. rewrite Ht, E5. exact Hf.
    - rewrite E6. apply stale_rescaled.
  Qed.
  (** so that, if the next flip can succeed, the next call returns what the old values give: all training since the last flip is lost *)
  Theorem C72_training_lost x e g x2 e2 g2 : embedded_input m x = Ok e -> flip_due m -> healthy svd D F O cutoff (active m) -> fails (offset m) ->
    ~ fails (1 - offset m) -> healthy svd D F O cutoff (g_list (a_reg m) (1 - offset m)) -> lossless svd D F O cutoff (g_list (a_reg m) (1 - offset m)) ->
    embedded_input m x2 = Ok e2 ->
    exists m', ad_call svd m x g = ((Err AssertionError, g), Some m') /\
      match contracted lab (offset m) g2 (size 0 e2) with
      | Raises ex => exists g' m'', ad_call svd m' x2 g2 = ((Err ex, g'), Some m'')
      | Rows n => exists y m'', ad_call svd m' x2 g2 = ((Ok y, Some n), Some m'') /\ offset m'' = offset m /\ shp y = [n; O] /\
          forall b c, b < n -> c < O -> get y [b; c] = core_output per D F (g_list (a_reg m) (1 - offset m)) (fun s i => get e2 [source (size 0 e2) b; s; i]) c
      end.
  Proof.
    intros He Hf Hh Hb Hb2 Hh2 Hl2 He2. destruct (C72_flip_refuted x e g He Hf Hh Hb) as (m' & E & E1 & E2 & E3 & E4 & E5 & E6 & E7 & E8 & _). exists m'. split; [exact E|].
    pose proof (gr_off _ _ _ _ _ _ (i_reg _ _ _ _ _ _ HI)) as Ho. fold (offset m) in Ho.
    assert (I1 : inv N O D F lab m') by (apply (step_inv svd N O D F lab m m' HD H2 HI); eapply Step_call; exact E).
    assert (C1 : g_cutoff (a_reg m') = cutoff) by (rewrite <- HC; apply (step_inv svd N O D F lab m m' HD H2 HI); eapply Step_call; exact E).
    rewrite <- E2, <- C1 in Hh2, Hl2. pose proof Hcut as Hc. rewrite <- C1 in Hc.
    assert (He2' : embedded_input m' x2 = Ok e2) by (unfold embedded_input in *; rewrite E3; exact He2).
    assert (Nb : ~ bad (g_offset (a_reg m')) lab (N - lab)) by (rewrite bad_iff; fold (offset m'); rewrite E1; exact Hb2).
    destruct (call_flip_exact svd N O D F lab HD H2 HF HO m' x2 e2 g2 _ I1 Hc He2' eq_refl E8 Hh2 Nb) as (m2 & Eo & Ec & [Ql _] & Q).
    fold (offset m') (offset m2) in *. assert (Em : (offset m' + 1) mod 2 = offset m) by (rewrite E1; destruct (offset m) as [|[|o]]; [reflexivity|reflexivity|lia]).
    rewrite Em in Eo, Q. destruct (contracted lab (offset m) g2 (size 0 e2)) as [n|ex].
    - destruct Q as (y & Q & Hy & Gy & _). exists y, m2. unfold ad_call. rewrite Q. split; [reflexivity|]. split; [exact Eo|]. split; [exact Hy|].
      intros b c Hbb Hcc. rewrite (Gy b c Hbb Hcc), Ec, E3, HP. specialize (Ql Hl2). destruct Ql as (W & _ & _ & _ & Qq).
      rewrite <- (closed_eqc D per _ _ HD (Qq 0 _ c Hcc)). rewrite E2 in W |- *. apply (closed_output D F O); [exact HD|exact W|].
      apply (no_regions N O D F lab m _ H2 HI). lia.
    - destruct Q as (g' & Q & _). exists g', m2. unfold ad_call. rewrite Q. reflexivity.
  Qed.
End C72.

(** Two sites on each side (input_dim = 4 with the default label_site): from the first call that is due on no call ever returns
    again, whatever calls and training steps come in between. *)
Theorem C72_four_forever svd O D F per par path std cutoff thr rnd m0 m m' x e g : 
  ad_init 4 O D F per par None path std cutoff thr rnd = Ok m0 -> 0 < D -> 0 < F -> 0 < O -> (0 < cutoff)%R -> history svd m0 m -> flip_due m ->
  sound svd D F O cutoff m m' -> healthy svd D F O cutoff (g_active (a_reg m')) -> embedded_input m' x = Ok e ->
  flip_due m' /\ exists m'', ad_call svd m' x g = ((Err AssertionError, g), Some m'').
Proof.
  intros Hinit HD HF HO Hcut Hist Hdue Hs Hh He.
  assert (Hfails : forall o, o < 2 -> fails 4 None o) by (intros o Ho; unfold fails, label_number; cbn; destruct o as [|[|o]]; [right|left|lia]; split; reflexivity).
  assert (Q : history svd m0 m' /\ flip_due m').
  { clear Hh He. induction Hs as [|m1 m2 Hs IH Hh Hst]; [auto|]. destruct IH as [Hh1 Hd1]. split; [eapply History_S; eassumption|].
    pose proof (Im svd 4 O D F per par None path std cutoff thr rnd m0 m1 Hinit ltac:(lia) HD Hh1) as I1. pose proof (gr_off _ _ _ _ _ _ (i_reg _ _ _ _ _ _ I1)) as Ho1.
    destruct Hst as [m1 l0 l1 R0 R1|m1 x1 g1 r1 m2 E|m1 f m2 E].
    - exact Hd1.
    - destruct (embedded_input m1 x1) as [e1|ex] eqn:Ee.
      + destruct (C72_flip_refuted svd 4 O D F per par None path std cutoff thr rnd m0 m1 Hinit ltac:(lia) HD Hh1 HF HO Hcut x1 e1 g1 Ee Hd1 Hh (Hfails _ Ho1)) as (m3 & E3 & _ & _ & _ & _ & _ & _ & _ & D3 & _).
        rewrite E in E3. injection E3 as _ <-. exact D3.
      + rewrite (C72_rejected_partial svd m1 x1 ex g1 Ee) in E. injection E as _ <-. exact Hd1.
    - unfold ad_register in E. destruct (mps_register R_cring (a_cfg m1) f) as [c|]; cbn [rbind] in E; [|discriminate E]. injection E as <-. exact Hd1. }
  destruct Q as [Hh' Hd']. split; [exact Hd'|].
  pose proof (Im svd 4 O D F per par None path std cutoff thr rnd m0 m' Hinit ltac:(lia) HD Hh') as I1. pose proof (gr_off _ _ _ _ _ _ (i_reg _ _ _ _ _ _ I1)) as Ho1.
  destruct (C72_flip_refuted svd 4 O D F per par None path std cutoff thr rnd m0 m' Hinit ltac:(lia) HD Hh' HF HO Hcut x e g He Hd' Hh (Hfails _ Ho1)) as (m3 & E3 & _). eauto.
Qed.


(** *** concrete models that meet the hypotheses *)
From Verif Require Import P_AdEx.
(** like [unit_mod], but the cores that are not merged are [c] times as large *)
Definition scaled_mod (c : R) (m : module R_cring) : module R_cring :=
  match m with
  | InputSite t => InputSite (@mkT R_cring (shp t) (fun i => (c * first_one i)%R))
  | _ => unit_mod m
  end.
Definition scaled_model (c0 c1 : R) (m : ad_mps) : ad_mps :=
  mkAd (a_cfg m) (mkReg (map (scaled_mod c0) (g_list0 (a_reg m))) (map (scaled_mod c1) (g_list1 (a_reg m))) (g_offset (a_reg m)) (g_counter (a_reg m)) (g_threshold (a_reg m)) (g_cutoff (a_reg m))) (a_bonds m) (a_svs m).
Lemma scaled_retrained c l : Forall (no_region R_cring) l -> Forall2 retrained l (map (scaled_mod c) l).
Proof. induction 1 as [|m l Hm H IH]; [constructor|]. cbn [map]. constructor; [|exact IH]. destruct m; [destruct Hm|..]; constructor; reflexivity. Qed.
Lemma scaled_pairs c l : forall s, pair_at (map (scaled_mod c) l) s = pair_at (map unit_mod l) s.
Proof.
  induction l as [|m l IH]; intros s; [reflexivity|]. cbn [map pair_at].
  assert (E : mod_core_len (scaled_mod c m) = mod_core_len (unit_mod m)) by (destruct m; reflexivity). rewrite E, IH. destruct (s <? _); [|reflexivity]. destruct m; reflexivity.
Qed.
Lemma scaled_healthy c cut l : (cut <= 1)%R -> (c <> 0)%R -> Forall (wf R_cring 2 1 1) l -> healthy const_svd 2 1 1 cut (map (scaled_mod c) l).
Proof.
  intros Hcut Hc W. destruct (unit_healthy cut l Hcut W) as [H1 H2]. split; [intros s p t E; rewrite scaled_pairs in E; exact (H1 s p t E)|].
  intros m t Hi Hm. apply in_map_iff in Hi as (m' & Em & Hi). destruct m' as [u ub b|u|u|u|u lo]; cbn [scaled_mod] in Em; subst m.
  - exfalso. destruct Hm as [Hm|Hm]; discriminate Hm.
  - apply (H2 _ t (in_map unit_mod l _ Hi) Hm).
  - destruct Hm as [Hm|Hm]; [|discriminate Hm]. injection Hm as <-. rewrite Forall_forall in W. specialize (W _ Hi). exists [0; 0; 0]. split; [cbn [shp]; rewrite W; repeat constructor|cbn; lra].
  - exfalso. destruct Hm as [Hm|Hm]; discriminate Hm.
  - exfalso. destruct Hm as [Hm|Hm]; discriminate Hm.
Qed.
Lemma scaled_lossless c cut l : (cut <= 1)%R -> Forall (wf R_cring 2 1 1) l -> lossless const_svd 2 1 1 cut (map (scaled_mod c) l).
Proof. intros Hcut W s p t S E. rewrite scaled_pairs in E. exact (unit_lossless cut l Hcut W s p t S E). Qed.
(** its output on the input that is 1 everywhere: one factor [c] for every core that is not merged *)
Definition lone (l : list kind) : nat := List.length (filter (fun k => match k with KI => true | _ => false end) l).
Lemma first_factor (M : mat R_cring) r c : M 0 0 = c -> M 0 1 = 0%R -> chain ((2, M) :: r) 0 0 = (c * chain r 0%nat 0%nat)%R.
Proof. intros E0 E1. rewrite chain_cons. unfold mmul. cbn. rewrite E0, E1. ring. Qed.
Lemma scaled_output c l : forall site, Forall (wf R_cring 2 1 1) l -> Forall (no_region R_cring) l ->
  chain (core_matrices 2 1 (map (scaled_mod c) l) site (fun _ _ => 1%R) 0) 0 0 = (c ^ lone (kinds R_cring l))%R.
Proof.
  induction l as [|m l IH]; intros site W NR; [reflexivity|]. inversion W as [|? ? Wm Wl]; inversion NR as [|? ? Nm Nl]; subst.
  destruct m as [u ub b|u|u|u|u lo]; [destruct Nm|..]; cbn [map scaled_mod unit_mod set_tensor mod_tensor core_matrices].
  - rewrite (first_factor _ _ 1%R); [|cbn; ring..]. rewrite IH by assumption. cbn [kinds map kind_of]. unfold lone. cbn [filter]. apply Rmult_1_l.
  - rewrite (first_factor _ _ c); [|cbn; ring..]. rewrite IH by assumption. cbn [kinds map kind_of]. unfold lone. cbn [filter List.length pow]. reflexivity.
  - change (lone (kinds R_cring (MergedInput u :: l))) with (lone (kinds R_cring l)). rewrite <- (IH (site + 2 * size 0 (@mkT R_cring (shp u) (fun i => first_one (tl i)))) Wl Nl).
    generalize (seq 0 (size 0 (@mkT R_cring (shp u) (fun i => first_one (tl i))))). intros q. induction q as [|s q IHq]; [reflexivity|]. cbn [map app].
    rewrite (first_factor _ _ 1%R); [|cbn; ring..]. rewrite IHq. apply Rmult_1_l.
  - rewrite (first_factor _ _ 1%R); [|cbn; ring..]. rewrite IH by assumption. unfold lone. cbn [kinds map kind_of filter]. apply Rmult_1_l.
Qed.

(** Six inputs, label_site = 4.  The cores in use give the output 2, the list that was in use before the last flip gives 1.
    A call fails with an AssertionError; it is caught; the next call returns 1. *)
Theorem C72_changes_refuted : exists m0 m m' x y m'', ad_init 6 1 2 1 false true (Some 4%Z) PNone (1/10) (1/10) 0 (fun _ _ => 0%R) = Ok m0 /\
  history const_svd m0 m /\ embedded_input m x = Ok x /\ flip_due m /\ healthy const_svd 2 1 1 (1/10) (g_active (a_reg m)) /\ lossless const_svd 2 1 1 (1/10) (g_active (a_reg m)) /\
  core_output false 2 1 (g_active (a_reg m)) (fun s i => get x [0; s; i]) 0 = 2%R /\
  ad_call const_svd m x None = ((Err AssertionError, None), Some m') /\
  ad_call const_svd m' x None = ((Ok y, Some 1), Some m'') /\ shp y = [1; 1] /\ get y [0; 0] = 1%R.
Proof.
  destruct (C49_two_inputs_partial 6 1 2 1 false true (Some 4%Z) PNone (1/10)%R (1/10)%R 0%Z (fun _ _ => 0%R) 4 ltac:(lia) eq_refl eq_refl) as (m0 & E).
  pose proof (unit_inv0 6 _ _ _ _ _ _ _ m0 E ltac:(lia)) as I0. pose proof (unit_noreg 6 _ _ _ _ _ _ _ m0 E ltac:(lia)) as NR.
  pose proof (unit_input 6 _ _ _ _ _ _ _ m0 E ltac:(lia)) as Hi0. pose proof (unit_due 6 _ _ _ _ _ _ _ m0 E ltac:(lia) ltac:(lia)) as Hd. pose proof (unit_offset 6 _ _ _ _ _ _ _ m0 E ltac:(lia)) as Ho.
  pose proof (NR 0 ltac:(lia)) as N0. pose proof (NR 1 ltac:(lia)) as N1. cbn [g_list Nat.eqb] in N0, N1.
  destruct (i_reg _ _ _ _ _ _ I0) as [_ [W0 K0] [W1 K1]].
  set (m := scaled_model 2 1 m0). set (x := @mkT R_cring [1; 6; 1] (fun _ => 1%R)).
  assert (Hh : history const_svd m0 m) by (eapply History_S; [apply History_0|]; apply Step_train; apply scaled_retrained; assumption).
  assert (Hi : embedded_input m x = Ok x).
  { destruct (init_inv 6 1 2 1 false true (Some 4%Z) PNone _ _ _ _ m0 E ltac:(lia) ltac:(lia)) as (mods & _ & _ & _ & _ & _ & _ & _ & _ & _ & _ & _ & Ep & _).
    unfold embedded_input. cbn [m scaled_model a_cfg]. rewrite Ep. cbn [route path_true rbind]. unfold mps_embed. cbn [x ndim shp List.length Nat.eqb orb assert_ rbind size nth].
    rewrite (i_in _ _ _ _ _ _ I0), (i_feat _ _ _ _ _ _ I0). reflexivity. }
  assert (Hd' : flip_due m) by exact Hd. assert (Ho' : offset m = 0) by exact Ho.
  assert (Ea : g_active (a_reg m) = map (scaled_mod 2) (g_list0 (a_reg m0))) by (unfold g_active; unfold offset in Ho'; rewrite Ho'; reflexivity).
  assert (El : g_list (a_reg m) 1 = map (scaled_mod 1) (g_list1 (a_reg m0))) by reflexivity.
  assert (A1 : healthy const_svd 2 1 1 (1/10) (g_active (a_reg m))) by (rewrite Ea; apply scaled_healthy; [lra|lra|exact W0]).
  assert (A2 : lossless const_svd 2 1 1 (1/10) (g_active (a_reg m))) by (rewrite Ea; apply scaled_lossless; [lra|exact W0]).
  assert (A3 : healthy const_svd 2 1 1 (1/10) (g_list (a_reg m) (1 - offset m))) by (rewrite Ho'; cbn [Nat.sub]; rewrite El; apply scaled_healthy; [lra|lra|exact W1]).
  assert (A4 : lossless const_svd 2 1 1 (1/10) (g_list (a_reg m) (1 - offset m))) by (rewrite Ho'; cbn [Nat.sub]; rewrite El; apply scaled_lossless; [lra|exact W1]).
  destruct (C72_training_lost const_svd 6 1 2 1 false true (Some 4%Z) PNone _ _ _ _ m0 m E ltac:(lia) ltac:(lia) Hh ltac:(lia) ltac:(lia) ltac:(lra) x x None x x None Hi Hd' A1) as (m' & C & Q).
  { rewrite Ho'. right. split; reflexivity. }
  { rewrite Ho'. intros [[X _]|[_ X]]; discriminate X. }
  { exact A3. } { exact A4. } { exact Hi. }
  rewrite Ho' in Q. change (contracted (label_number 6 (Some 4%Z)) 0 None (size 0 x)) with (Rows 1) in Q. destruct Q as (y & m'' & C2 & _ & Sy & Gy).
  exists m0, m, m', x, y, m''. split; [exact E|]. split; [exact Hh|]. split; [exact Hi|]. split; [exact Hd'|]. split; [exact A1|]. split; [exact A2|]. split.
  { unfold core_output. rewrite Ea. cbn [x get]. rewrite (scaled_output 2 _ 0 W0 N0), K0. vm_compute (lone _). ring. }
  split; [exact C|]. split; [exact C2|]. split; [exact Sy|]. rewrite (Gy 0 0) by lia. cbn [Nat.sub]. rewrite El. unfold core_output. cbn [x get].
  rewrite (scaled_output 1 _ 0 W1 N1), K1. apply pow1.
Qed.

(** input_dim = 4 with the default label_site: one call fails, is caught, and the next fails, too *)
Theorem C72_four_met : exists m0 m m' m'' x, ad_init 4 1 2 1 false true None PNone (1/10) (1/10) 0 (fun _ _ => 0%R) = Ok m0 /\
  history const_svd m0 m /\ flip_due m /\ sound const_svd 2 1 1 (1/10) m m' /\ healthy const_svd 2 1 1 (1/10) (g_active (a_reg m')) /\ embedded_input m' x = Ok x /\
  ad_call const_svd m x None = ((Err AssertionError, None), Some m') /\ ad_call const_svd m' x None = ((Err AssertionError, None), Some m'').
Proof.
  destruct (C49_two_inputs_partial 4 1 2 1 false true None PNone (1/10)%R (1/10)%R 0%Z (fun _ _ => 0%R) 2 ltac:(lia) eq_refl eq_refl) as (m0 & E).
  assert (Hc : (0 < 1/10 <= 1)%R) by lra. pose proof (unit_active 4 _ _ _ _ _ _ _ m0 E ltac:(lia) Hc) as [A1 _].
  pose proof (after_history _ _ _ (unit_after 4 _ _ _ _ _ _ _ m0 E ltac:(lia))) as Ha. pose proof (unit_input 4 _ _ _ _ _ _ _ m0 E ltac:(lia)) as Hi. pose proof (unit_due 4 _ _ _ _ _ _ _ m0 E ltac:(lia) ltac:(lia)) as Hd.
  pose proof (unit_offset 4 _ _ _ _ _ _ _ m0 E ltac:(lia)) as Ho. destruct (i_reg _ _ _ _ _ _ (unit_inv0 4 _ _ _ _ _ _ _ m0 E ltac:(lia))) as [_ [W0 K0] [W1 K1]].
  set (x := @mkT K [2; 4; 1] (fun _ => 1%R)) in *. set (m := unit_model m0) in *.
  destruct (C72_flip_refuted const_svd 4 1 2 1 false true None PNone _ _ _ _ m0 m E ltac:(lia) ltac:(lia) Ha ltac:(lia) ltac:(lia) ltac:(lra) x x None Hi Hd A1) as (m' & C & Eo & Ea & Ec & _ & _ & _ & _ & Hd' & _).
  { rewrite Ho. right. split; reflexivity. }
  assert (Hs : sound const_svd 2 1 1 (1/10) m m') by (eapply Sound_S; [apply Sound_0|exact A1|eapply Step_call; exact C]).
  assert (A1' : healthy const_svd 2 1 1 (1/10) (g_active (a_reg m'))) by (rewrite Ea, Ho; apply unit_healthy; [lra|exact W1]).
  assert (Hi' : embedded_input m' x = Ok x) by (unfold embedded_input in *; rewrite Ec; exact Hi).
  destruct (C72_four_forever const_svd 1 2 1 false true PNone _ _ _ _ m0 m m' x x None E ltac:(lia) ltac:(lia) ltac:(lia) ltac:(lra) Ha Hd Hs A1' Hi') as (_ & m'' & C2).
  exists m0, m, m', m'', x. auto 10.
Qed.
Print Assumptions C72_rejected_partial. Print Assumptions C72_contraction_partial. Print Assumptions C72_split_partial. Print Assumptions C72_flip_refuted.
Print Assumptions C72_training_lost. Print Assumptions C72_four_forever. Print Assumptions C72_changes_refuted. Print Assumptions C72_four_met.
