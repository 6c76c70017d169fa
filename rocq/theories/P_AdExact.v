(** * P_AdExact: C71, and C48, C51, C53 without a hypothesis on the batch size of the last call.
    The output of an adaptive model in every history. *)
From Coq Require Import Reals Lra.
From Verif Require Import Base Scalars Tensor Spec LinAlg Contractables ContrProofs Utils UtilsSpec SvdProofs P_Svd TorchMps TmSpec TmProofs TmFinal Adaptive AdMerge AdKinds AdSpec AdUnmerge AdFlip AdState AdCall AdHealthy P_Ad AdExact Crash AdCrash.

(** *** specification *)
(** The matrices that the cores of a merged list give, from left to right; [v s i] is component i of the
    feature vector of site s, [site] the first site not used yet, [o] the component of the output,
    [D] the bond dimension, [F] the feature dimension. *)
Fixpoint core_matrices (D F : nat) (l : list (module R_cring)) (site : nat) (v : nat -> nat -> R) (o : nat) : list (nat * mat R_cring) :=
  match l with
  | [] => []
  | OutputSite t :: r => (D, (fun a b => get t [o; a; b]) : mat R_cring) :: core_matrices D F r site v o
  | InputSite t :: r => (D, (fun a b => bsum (S := R_cring) F (fun i => get t [a; b; i] * v site i)%R) : mat R_cring) :: core_matrices D F r (site + 1) v o
  | MergedInput t :: r => map (fun s => (D, (fun a b => bsum (S := R_cring) F (fun i => bsum (S := R_cring) F (fun j =>
        get t [s; a; b; i; j] * (v (site + 2 * s)%nat i * v (site + 2 * s + 1)%nat j))%R)) : mat R_cring)) (seq 0 (size 0 t))
      ++ core_matrices D F r (site + 2 * size 0 t) v o
  | MergedOutput t _ :: r => (D, (fun a b => bsum (S := R_cring) F (fun i => get t [o; a; b; i] * v site i)%R) : mat R_cring) :: core_matrices D F r (site + 1) v o
  | InputRegion _ _ _ :: r => []
  end.
(** open boundary: entry (0,0) of the product; periodic boundary: its trace *)
Definition core_output (per : bool) (D F : nat) (l : list (module R_cring)) (v : nat -> nat -> R) (o : nat) : R :=
  if per then mtrace D (chain (core_matrices D F l 0 v o)) else chain (core_matrices D F l 0 v o) 0 0.
(** what a call does: no flip due, or a flip *)
Definition call_outcome (N lab off : nat) (flip : bool) (g : option nat) (B : nat) : P_Mps4.outcome :=
  if flip then
    if ((lab =? 2) && (off =? 1)) || ((N - lab =? 2) && ((off + lab) mod 2 =? 0)) then Raises AssertionError
    else contracted lab (1 - off) g B
  else contracted lab off g B.

Section Spec.
  Notation K := R_cring.
  Variables D F O : nat.
  Lemma matrices_eqc l : forall site v o, Forall (wf_mod K D F O) l -> Forall (no_region K) l ->
    eqc K D (csem_all K F l site v o) (core_matrices D F l site v o).
  Proof.
    induction l as [|m l IH]; intros site v o W NR; [apply eqc_refl; constructor|]. inversion W as [|? ? Wm Wl]; inversion NR as [|? ? Nm Nl]; subst.
    specialize (IH (site + mod_len m) v o Wl Nl). cbn [csem_all]. destruct m as [t ub b|t|t|t|t lo]; [destruct Nm|..]; cbn [core_matrices csem sem mod_len wf_mod] in *.
    - change ((D, ?M) :: ?r) with ([(D, M)] ++ r). apply eqc_app; [|rewrite Nat.add_0_r in IH |- *; exact IH].
      unfold size. rewrite Wm. cbn [nth]. apply eqc_one. reflexivity.
    - change ((D, ?M) :: ?r) with ([(D, M)] ++ r). apply eqc_app; [|exact IH].
      unfold size. rewrite Wm. cbn [nth]. apply eqc_one. intros i j Hi Hj. unfold site_matrix, no_bias. rewrite Nat.add_0_r. cbn [sadd s0 R_cring]. change (sadd ?a s0) with (a + 0)%R. rewrite Rplus_0_r.
      apply (bsum_ext (S := R_cring)). intros k Hk. apply Rmult_comm.
    - destruct Wm as (n & Hn & Ht). apply eqc_app; [|exact IH].
      unfold size. rewrite Ht. cbn [nth]. unfold rcl. generalize (seq 0 n). intros q. induction q as [|s q IHq]; [apply eqc_refl; constructor|]. cbn [map].
      change ((D, ?M) :: ?r) with ([(D, M)] ++ r). apply eqc_app; [|exact IHq]. apply eqc_one. intros i j Hi Hj.
      apply (bsum_ext (S := R_cring)). intros k Hk. apply (bsum_ext (S := R_cring)). intros k' Hk'. rewrite Nat.add_assoc. reflexivity.
    - change ((D, ?M) :: ?r) with ([(D, M)] ++ r). apply eqc_app; [|exact IH].
      unfold size. rewrite Wm. cbn [nth]. apply eqc_one. intros i j Hi Hj. rewrite Nat.add_0_r. apply (bsum_ext (S := R_cring)). intros k Hk. apply Rmult_comm.
  Qed.
  Lemma closed_output per l v o : 0 < D -> Forall (wf_mod K D F O) l -> Forall (no_region K) l -> closed D per (csem_all K F l 0 v o) = core_output per D F l v o.
  Proof. intros HD W NR. rewrite (closed_eqc D per _ _ HD (matrices_eqc l 0 v o W NR)). reflexivity. Qed.
End Spec.

Section Adaptive.
  Notation K := R_cring.
  Notation T := (tensor R_ops).
  Variable svd : T -> T * T * T.
  Variables (N O D F : nat) (per par : bool) (label : option Z) (path : mpath) (std cutoff : R) (thr : Z) (rnd : nat -> list nat -> R) (m0 m : ad_mps).
  Hypotheses (Hinit : ad_init N O D F per par label path std cutoff thr rnd = Ok m0) (HN : 1 <= N) (HD : 0 < D).
  (** any history: training, calls, also calls whose exceptions were caught, feature maps *)
  Hypothesis Hafter : history svd m0 m.
  Notation lab := (label_number N label).
  Notation active m := (g_active (a_reg m)).
  (** [y] (n rows) is what the active cores of [m] give on the embedded input [e] (B rows) *)
  Definition output_of (m : ad_mps) (e y : tensor K) (B n : nat) : Prop :=
    shp y = [n; O] /\ forall b c, b < n -> c < O -> get y [b; c] = core_output per D F (active m) (fun s i => get e [source B b; s; i]) c.

  Lemma H2 : 1 < N. Proof. eapply two; eassumption. Qed.
  Lemma I0 : inv N O D F lab m0. Proof. eapply inv0; eassumption. Qed.
  Lemma Im : inv N O D F lab m. Proof. apply (history_inv svd N O D F lab m0 m HD H2 I0 Hafter). Qed.
  Lemma of_cores_output m' e y B n : inv N O D F lab m' -> m_periodic (a_cfg m') = per -> shp y = [n; O] -> of_cores O D F m' e y B n -> output_of m' e y B n.
  Proof.
    intros Hi Hp Hy H. split; [exact Hy|]. intros b c Hb Hc. rewrite (H b c Hb Hc), Hp. destruct (inv_sites N O D F lab H2 m' Hi) as [Hpq _].
    pose proof (gr_active _ _ _ _ _ _ (i_reg _ _ _ _ _ _ Hi)) as Ga. apply (closed_output D F O); [exact HD|apply Ga|].
    eapply Forall_impl; [|apply (merged_no_region D F O _ lab (N - lab) _ (gr_off _ _ _ _ _ _ (i_reg _ _ _ _ _ _ Hi)) Hpq Ga)]. intros z Hz. destruct z; exact Hz.
  Qed.
  Lemma Pm : m_periodic (a_cfg m) = per. 
  Proof.
    destruct (history_inv svd N O D F lab m0 m HD H2 I0 Hafter) as (_ & _ & _ & E & _).
    destruct (start N O D F per par label path std cutoff thr rnd m0 Hinit HN HD) as (_ & _ & _ & _ & E'). congruence.
  Qed.

  (** C71: every call that returns, whatever torch.svd does and whatever happened before *)
  Theorem C71_returns x e g B y g' m' : embedded_input m x = Ok e -> size 0 e = B -> ad_forward svd m x g = ((Ok y, g'), Some m') ->
    exists n, contracted lab (offset m') g B = Rows n /\ g' = Some n /\ output_of m' e y B n.
  Proof.
    intros He HB Ef. destruct (call_returns svd N O D F lab HD H2 m x e g B y g' m' Im He HB Ef) as (n & E1 & E2 & E3 & E4).
    destruct (call_facts svd N O D F lab m x g _ m' HD H2 Im Ef) as (Hi' & Ec & _). exists n. split; [exact E1|]. split; [exact E2|].
    apply of_cores_output; [exact Hi'|rewrite Ec; exact Pm|exact E3|exact E4].
  Qed.
  (** C71: a call before the threshold is reached, for every torch.svd *)
  Theorem C71_waiting x e g B : embedded_input m x = Ok e -> size 0 e = B -> (g_counter (a_reg m) < thr)%Z ->
    match contracted lab (offset m) g B with
    | Raises ex => exists g' m', ad_forward svd m x g = ((Err ex, g'), Some m') /\ active m' = active m
    | Rows n => exists y m', ad_forward svd m x g = ((Ok y, Some n), Some m') /\ active m' = active m /\ output_of m e y B n
    end.
  Proof.
    intros He HB Hc.
    assert (Ht : g_threshold (a_reg m) = thr).
    { destruct (history_inv svd N O D F lab m0 m HD H2 I0 Hafter) as (_ & E & _).
      destruct (start N O D F per par label path std cutoff thr rnd m0 Hinit HN HD) as (_ & _ & E' & _). congruence. }
    pose proof (call_no_flip_exact svd N O D F lab HD H2 m x e g B Im He HB ltac:(unfold flip_due; lia)) as Q. fold (offset m) in Q.
    destruct (contracted lab (offset m) g B) as [n|ex].
    - destruct Q as (y & E & Hy & Gy). exists y, (counted m B). split; [exact E|]. split; [reflexivity|]. apply of_cores_output; [exact Im|exact Pm|exact Hy|exact Gy].
    - destruct Q as (g' & E). exists g', (counted m B). split; [exact E|reflexivity].
  Qed.

  Hypotheses (HF : 0 < F) (HO : 0 < O) (Hcut : (0 < cutoff)%R).
  Lemma Cm : g_cutoff (a_reg m) = cutoff. 
  Proof.
    destruct (history_inv svd N O D F lab m0 m HD H2 I0 Hafter) as (_ & _ & E & _).
    destruct (start N O D F per par label path std cutoff thr rnd m0 Hinit HN HD) as (_ & _ & _ & E' & _). congruence.
  Qed.
  Lemma bad_decides off : off < 2 ->
    (((lab =? 2) && (off =? 1)) || ((N - lab =? 2) && ((off + lab) mod 2 =? 0)) = true <-> bad off lab (N - lab)) /\ (off + 1) mod 2 = 1 - off.
  Proof.
    intros Ho. split.
    - rewrite bad_iff, orb_true_iff, !andb_true_iff, !Nat.eqb_eq. reflexivity.
    - destruct off as [|[|o]]; [reflexivity|reflexivity|lia].
  Qed.
  (** C48, exactly: the result of every call *)
  Theorem C48_exact x e g B flip : embedded_input m x = Ok e -> size 0 e = B -> (flip = true <-> flip_due m) -> (flip_due m -> healthy svd D F O cutoff (active m)) ->
    match call_outcome N lab (offset m) flip g B with
    | Raises ex => exists g' o, ad_forward svd m x g = ((Err ex, g'), o)
    | Rows n => exists y m', ad_forward svd m x g = ((Ok y, Some n), Some m') /\ offset m' = (if flip then 1 - offset m else offset m) /\ output_of m' e y B n
    end.
  Proof.
    intros He HB Hfl Hh. pose proof (gr_off _ _ _ _ _ _ (i_reg _ _ _ _ _ _ Im)) as Ho. fold (offset m) in Ho. unfold call_outcome. destruct flip.
    - destruct Hfl as [Hf _]. specialize (Hf eq_refl). specialize (Hh Hf). rewrite <- Cm in Hh. pose proof Hcut as Hc. rewrite <- Cm in Hc.
      destruct (bad_decides (offset m) Ho) as (Hb & Hm). destruct (_ || _).
      + destruct (call_flip svd N O D F lab HD HF HO H2 m x e g B Im Hc He HB Hf Hh) as [Gb _]. rewrite Gb by (apply Hb; reflexivity). eauto.
      + assert (Nb : ~ bad (g_offset (a_reg m)) lab (N - lab)) by (intros Q; apply Hb in Q; discriminate Q).
        destruct (call_flip_exact svd N O D F lab HD H2 HF HO m x e g B Im Hc He HB Hf Hh Nb) as (m' & Eo & Ec & _ & Q). fold (offset m) (offset m') in *. rewrite Hm in Eo, Q.
        destruct (contracted lab (1 - offset m) g B) as [n|ex].
        * destruct Q as (y & E & Hy & Gy & _). exists y, m'. split; [exact E|]. split; [exact Eo|].
          destruct (call_facts svd N O D F lab m x g _ m' HD H2 Im E) as (Hi' & _). apply of_cores_output; [exact Hi'|rewrite Ec; exact Pm|exact Hy|exact Gy].
        * destruct Q as (g' & E & _). eauto.
    - assert (Nf : ~ flip_due m) by (intros Q; apply Hfl in Q; discriminate Q).
      pose proof (call_no_flip_exact svd N O D F lab HD H2 m x e g B Im He HB Nf) as Q. fold (offset m) in Q.
      destruct (contracted lab (offset m) g B) as [n|ex].
      + destruct Q as (y & E & Hy & Gy). exists y, (counted m B). split; [exact E|]. split; [reflexivity|]. apply of_cores_output; [|exact Pm|exact Hy|exact Gy].
        apply (call_facts svd N O D F lab m x g _ _ HD H2 Im E).
      + destruct Q as (g' & E). eauto.
  Qed.

  (** C51 for every remembered batch size: if the call that flips without loss and the call of the same model that waits
      both return, then the rows that both outputs have are the same; and they have the same number of rows unless label_site = 0 *)
  Theorem C51_lossless_exact x e g thr' y g1 m1 y' g2 m2 : embedded_input m x = Ok e -> flip_due m ->
    healthy svd D F O cutoff (active m) -> lossless svd D F O cutoff (active m) -> (g_counter (a_reg m) < thr')%Z ->
    let waiting := with_reg m (mkReg (g_list0 (a_reg m)) (g_list1 (a_reg m)) (g_offset (a_reg m)) (g_counter (a_reg m)) thr' (g_cutoff (a_reg m))) in
    ad_forward svd m x g = ((Ok y, g1), Some m1) -> ad_forward svd waiting x g = ((Ok y', g2), Some m2) ->
    offset m1 <> offset m /\ offset m2 = offset m /\
    exists n n', shp y = [n; O] /\ shp y' = [n'; O] /\ (0 < lab -> n = size 0 e /\ n' = size 0 e) /\
      forall b c, b < n -> b < n' -> c < O -> get y [b; c] = get y' [b; c].
  Proof.
    intros He Hf Hh Hl Hthr waiting E E'. rewrite <- Cm in Hh, Hl. pose proof Hcut as Hc. rewrite <- Cm in Hc.
    pose proof (gr_off _ _ _ _ _ _ (i_reg _ _ _ _ _ _ Im)) as Ho. fold (offset m) in Ho. destruct (bad_decides (offset m) Ho) as (_ & Hm).
    assert (Nb : ~ bad (g_offset (a_reg m)) lab (N - lab)).
    { intros Hb. destruct (call_flip svd N O D F lab HD HF HO H2 m x e g _ Im Hc He eq_refl Hf Hh) as [Gb _]. rewrite (Gb Hb) in E. discriminate E. }
    destruct (call_flip_exact svd N O D F lab HD H2 HF HO m x e g _ Im Hc He eq_refl Hf Hh Nb) as (m' & Eo & Ec & [Ql _] & Q). fold (offset m) (offset m') in *. rewrite Hm in Eo, Q.
    assert (Iw : inv N O D F lab waiting) by (pose proof Im as [A1 A2 A3 A4 A5 A6 [B1 B2 B3] A8 A9]; constructor; try assumption; constructor; assumption).
    assert (Nf : ~ flip_due waiting) by (unfold flip_due, waiting; cbn [with_reg a_reg g_threshold g_counter]; lia).
    pose proof (call_no_flip_exact svd N O D F lab HD H2 waiting x e g _ Iw He eq_refl Nf) as Q'. change (g_offset (a_reg waiting)) with (offset m) in Q'.
    destruct (contracted lab (1 - offset m) g (size 0 e)) as [n|] eqn:C1; [|destruct Q as (? & X & _); rewrite E in X; discriminate X].
    destruct (contracted lab (offset m) g (size 0 e)) as [n'|] eqn:C2; [|destruct Q' as (? & X); rewrite E' in X; discriminate X].
    destruct Q as (y1 & X & Hy & Gy & _). rewrite E in X. injection X as <- _ ->. destruct Q' as (y1 & X' & Hy' & Gy'). rewrite E' in X'. injection X' as <- _ ->.
    split; [rewrite Eo; lia|]. split; [reflexivity|]. exists n, n'. split; [exact Hy|]. split; [exact Hy'|]. split.
    - intros Hlab. unfold contracted in C1, C2. destruct (Nat.eqb_spec lab 0) as [|_]; [lia|]. cbn [andb] in C1, C2. injection C1 as <-. injection C2 as <-. auto.
    - intros b c Hb Hb' Hcc. unfold of_cores in Gy, Gy'. rewrite Gy, Gy' by assumption. rewrite Ec. specialize (Ql Hl). destruct Ql as (_ & _ & _ & _ & Qq).
      symmetry. change (m_periodic (a_cfg waiting)) with (m_periodic (a_cfg m)). apply closed_eqc; [exact HD|]. apply Qq. exact Hcc.
  Qed.

  (** C53 for every remembered batch size *)
  Theorem C53_flip_exact x e g y g' m' : embedded_input m x = Ok e -> flip_due m ->
    healthy svd D F O cutoff (active m) -> ad_forward svd m x g = ((Ok y, g'), Some m') ->
    forall i, i < N + 2 ->
      (1 <= i <= N /\ (i - 1) mod 2 = offset m ->
         exists p t S, pair_at (active m) (i - 1) = Some (p, t) /\ spectrum svd D F O p t S /\
           nth i (a_bonds m') 0 = count_ge cutoff (fun k => get S [k]) (Nat.min D (nsv D F O p)) /\
           shp (nth i (a_svs m') (mkT [] (fun _ => 0%R))) = [D] /\
           forall k, k < D -> get (nth i (a_svs m') (mkT [] (fun _ => 0%R))) [k] = if k <? nsv D F O p then get S [k] else 0%R) /\
      (~ (1 <= i <= N /\ (i - 1) mod 2 = offset m) ->
         nth i (a_bonds m') 0 = nth i (a_bonds m) 0 /\ forall z, nth i (a_svs m') z = nth i (a_svs m) z).
  Proof.
    intros He Hf Hh Ef i Hi. rewrite <- Cm in Hh. pose proof Hcut as Hc. rewrite <- Cm in Hc.
    assert (Hb : ~ bad (g_offset (a_reg m)) lab (N - lab)).
    { intros Hb. destruct (call_flip svd N O D F lab HD HF HO H2 m x e g _ Im Hc He eq_refl Hf Hh) as [Gb _]. rewrite (Gb Hb) in Ef. discriminate Ef. }
    destruct (call_flip_exact svd N O D F lab HD H2 HF HO m x e g _ Im Hc He eq_refl Hf Hh Hb) as (m1 & _ & _ & _ & Q).
    destruct (contracted lab ((g_offset (a_reg m) + 1) mod 2) g (size 0 e)) as [n|]; [|destruct Q as (? & X & _); rewrite Ef in X; discriminate X].
    destruct Q as (y1 & E & _ & _ & P). rewrite Ef in E. injection E as <- _ <-. specialize (P i Hi).
    pose proof (i_le _ _ _ _ _ _ Im) as Hle. assert (Hpq : 1 < lab + (N - lab)) by (pose proof H2; lia).
    pose proof (gr_off _ _ _ _ _ _ (i_reg _ _ _ _ _ _ Im)) as Ho. pose proof (gr_active _ _ _ _ _ _ (i_reg _ _ _ _ _ _ Im)) as Ga.
    destruct (mk_facts _ _ _ Ho Hpq) as (Al & _). rewrite <- (proj2 Ga) in Al. pose proof (pair_aligned _ _ _ Al (i - 1)) as PA.
    rewrite (merged_cores D F O _ _ _ _ Ho Hpq Ga) in PA. rewrite xorb_false_r, AdSweep.odd_bit in PA.
    assert (Hbit : AdSweep.bit ((i - 1) mod 2) = AdSweep.bit (g_offset (a_reg m)) <-> (i - 1) mod 2 = offset m).
    { unfold offset. pose proof (Nat.mod_upper_bound (i - 1) 2 ltac:(lia)). destruct ((i - 1) mod 2) as [|[|z]]; [| |lia]; (destruct (g_offset (a_reg m)) as [|[|z']]; [| |lia]); cbn; split; congruence. }
    rewrite Hbit in PA. split.
    - intros [Hr Hm]. destruct PA as [_ PA]. destruct PA as [[pr t] Pr]; [split; [exact Hm|lia]|].
      destruct (Nat.eqb_spec i 0); [lia|]. rewrite Pr in P. destruct P as (S & Sp & K1 & K2 & K3 & K4). exists pr, t, S. split; [exact Pr|]. split; [exact Sp|]. rewrite Cm in K1. split; [exact K1|]. split; [exact K3|exact K4].
    - intros Hn. destruct (Nat.eqb_spec i 0) as [->|Hz]; [exact P|]. destruct (pair_at (active m) (i - 1)) as [[pr t]|] eqn:Pr; [|exact P].
      exfalso. apply Hn. destruct PA as [PA _]. destruct PA as [A B]; [eauto|]. split; [lia|exact A].
  Qed.

  (** C53 is false for a flip whose contraction then raises (label_site = 0 and another batch size than the last call):
      the cores are split and the offset changes, but both lists stay as they were, at the merged bonds too *)
  Theorem C53_failed_flip_refuted x e g ex : embedded_input m x = Ok e -> flip_due m ->
    healthy svd D F O cutoff (active m) ->
    ((lab =? 2) && (offset m =? 1)) || ((N - lab =? 2) && ((offset m + lab) mod 2 =? 0)) = false ->
    contracted lab (1 - offset m) g (size 0 e) = Raises ex ->
    exists g' m', ad_forward svd m x g = ((Err ex, g'), Some m') /\ offset m' = 1 - offset m /\ a_bonds m' = a_bonds m /\ a_svs m' = a_svs m.
  Proof.
    intros He Hf Hh Hb0 Cr. rewrite <- Cm in Hh. pose proof Hcut as Hc. rewrite <- Cm in Hc.
    pose proof (gr_off _ _ _ _ _ _ (i_reg _ _ _ _ _ _ Im)) as Ho. fold (offset m) in Ho. destruct (bad_decides (offset m) Ho) as (Hb & Hm).
    assert (Nb : ~ bad (g_offset (a_reg m)) lab (N - lab)) by (intros Q; apply Hb in Q; congruence).
    destruct (call_flip_exact svd N O D F lab HD H2 HF HO m x e g _ Im Hc He eq_refl Hf Hh Nb) as (m' & Eo & _ & _ & Q). fold (offset m) (offset m') in *. rewrite Hm in Eo, Q. rewrite Cr in Q.
    destruct Q as (g' & E & E1 & E2). exists g', m'. repeat split; assumption.
  Qed.
End Adaptive.

(** *** the hypotheses are met: label_site = 0, six inputs, a flip that is due; the outcome depends on the last batch size *)
From Verif Require Import P_AdEx.
Theorem C48_exact_met : exists m0 x e, ad_init 6 1 2 1 false true (Some 0%Z) PNone (1/10) (1/10) 0 (fun _ _ => 0%R) = Ok m0 /\
  after const_svd m0 (unit_model m0) /\ flip_due (unit_model m0) /\ healthy const_svd 2 1 1 (1/10) (g_active (a_reg (unit_model m0))) /\
  lossless const_svd 2 1 1 (1/10) (g_active (a_reg (unit_model m0))) /\ embedded_input (unit_model m0) x = Ok e /\ size 0 e = 2 /\
  (exists g' o, ad_forward const_svd (unit_model m0) x None = ((Err RuntimeError, g'), o)) /\
  (exists g' o, ad_forward const_svd (unit_model m0) x (Some 5) = ((Err RuntimeError, g'), o)) /\
  (exists y m', ad_forward const_svd (unit_model m0) x (Some 1) = ((Ok y, Some 2), Some m') /\ offset m' = 1).
Proof.
  destruct (C49_two_inputs_partial 6 1 2 1 false true (Some 0%Z) PNone (1/10)%R (1/10)%R 0%Z (fun _ _ => 0%R) 0 ltac:(lia) eq_refl eq_refl) as (m0 & E).
  assert (Hc : (0 < 1/10 <= 1)%R) by lra. pose proof (unit_active 6 _ _ _ _ _ _ _ m0 E ltac:(lia) Hc) as [A1 A2].
  pose proof (unit_after 6 _ _ _ _ _ _ _ m0 E ltac:(lia)) as Ha. pose proof (unit_input 6 _ _ _ _ _ _ _ m0 E ltac:(lia)) as Hi. pose proof (unit_due 6 _ _ _ _ _ _ _ m0 E ltac:(lia) ltac:(lia)) as Hd.
  pose proof (unit_offset 6 _ _ _ _ _ _ _ m0 E ltac:(lia)) as Ho.
  pose proof (fun g => C48_exact const_svd 6 1 2 1 false true (Some 0%Z) PNone _ _ _ _ m0 (unit_model m0) E ltac:(lia) ltac:(lia) (after_history _ _ _ Ha) ltac:(lia) ltac:(lia) ltac:(lra) _ _ g 2 true Hi eq_refl (conj (fun _ => Hd) (fun _ => eq_refl)) (fun _ => A1)) as Q.
  rewrite Ho in Q. pose proof (Q None) as Q0. pose proof (Q (Some 5)) as Q5. pose proof (Q (Some 1)) as Q1. clear Q.
  change (call_outcome 6 (label_number 6 (Some 0%Z)) 0 true None 2) with (Raises RuntimeError) in Q0.
  change (call_outcome 6 (label_number 6 (Some 0%Z)) 0 true (Some 5) 2) with (Raises RuntimeError) in Q5.
  change (call_outcome 6 (label_number 6 (Some 0%Z)) 0 true (Some 1) 2) with (Rows 2) in Q1. cbn [Nat.sub] in Q1.
  exists m0, (@mkT K [2; 6; 1] (fun _ => 1%R)), (@mkT K [2; 6; 1] (fun _ => 1%R)). split; [exact E|]. split; [exact Ha|]. split; [exact Hd|]. split; [exact A1|]. split; [exact A2|].
  split; [exact Hi|]. split; [reflexivity|]. split; [exact Q0|]. split; [exact Q5|]. destruct Q1 as (y & m' & F & G & _). eauto.
Qed.
Theorem C53_failed_flip_met : exists m0 x, ad_init 6 1 2 1 false true (Some 0%Z) PNone (1/10) (1/10) 0 (fun _ _ => 0%R) = Ok m0 /\
  after const_svd m0 (unit_model m0) /\
  exists g' m', ad_forward const_svd (unit_model m0) x (Some 5) = ((Err RuntimeError, g'), Some m') /\
    offset (unit_model m0) = 0 /\ offset m' = 1 /\ a_bonds m' = a_bonds (unit_model m0) /\ a_svs m' = a_svs (unit_model m0).
Proof.
  destruct (C49_two_inputs_partial 6 1 2 1 false true (Some 0%Z) PNone (1/10)%R (1/10)%R 0%Z (fun _ _ => 0%R) 0 ltac:(lia) eq_refl eq_refl) as (m0 & E).
  assert (Hc : (0 < 1/10 <= 1)%R) by lra. pose proof (unit_active 6 _ _ _ _ _ _ _ m0 E ltac:(lia) Hc) as [A1 A2].
  pose proof (unit_after 6 _ _ _ _ _ _ _ m0 E ltac:(lia)) as Ha. pose proof (unit_input 6 _ _ _ _ _ _ _ m0 E ltac:(lia)) as Hi. pose proof (unit_due 6 _ _ _ _ _ _ _ m0 E ltac:(lia) ltac:(lia)) as Hd.
  pose proof (unit_offset 6 _ _ _ _ _ _ _ m0 E ltac:(lia)) as Ho.
  exists m0, (@mkT K [2; 6; 1] (fun _ => 1%R)). split; [exact E|]. split; [exact Ha|].
  pose proof (C53_failed_flip_refuted const_svd 6 1 2 1 false true (Some 0%Z) PNone _ _ _ _ m0 (unit_model m0) E ltac:(lia) ltac:(lia) (after_history _ _ _ Ha) ltac:(lia) ltac:(lia) ltac:(lra) _ _ (Some 5) RuntimeError Hi Hd A1) as Q.
  rewrite Ho in Q. destruct (Q eq_refl eq_refl) as (g' & m' & F & G & H1 & H3). exists g', m'. split; [exact F|]. split; [exact Ho|]. split; [exact G|]. split; assumption.
Qed.
(** a model that waits (merge_threshold = 10): C71_waiting, C71_returns *)
Theorem C71_waiting_met : exists m0 x e y m', ad_init 6 1 2 1 false true None PNone (1/10) (1/10) 10 (fun _ _ => 0%R) = Ok m0 /\
  after const_svd m0 (unit_model m0) /\ (g_counter (a_reg (unit_model m0)) < 10)%Z /\ embedded_input (unit_model m0) x = Ok e /\ size 0 e = 2 /\
  ad_forward const_svd (unit_model m0) x None = ((Ok y, Some 2), Some m').
Proof.
  destruct (C49_two_inputs_partial 6 1 2 1 false true None PNone (1/10)%R (1/10)%R 10%Z (fun _ _ => 0%R) 3 ltac:(lia) eq_refl eq_refl) as (m0 & E).
  pose proof (unit_after 6 _ _ _ _ _ _ _ m0 E ltac:(lia)) as Ha. pose proof (unit_input 6 _ _ _ _ _ _ _ m0 E ltac:(lia)) as Hi.
  destruct (start 6 1 2 1 false true None PNone _ _ _ _ m0 E ltac:(lia) ltac:(lia)) as (_ & C & _).
  assert (Hc : (g_counter (a_reg (unit_model m0)) < 10)%Z) by (change (g_counter (a_reg (unit_model m0))) with (g_counter (a_reg m0)); rewrite C; lia).
  pose proof (C71_waiting const_svd 6 1 2 1 false true None PNone _ _ _ _ m0 (unit_model m0) E ltac:(lia) ltac:(lia) (after_history _ _ _ Ha) _ _ None 2 Hi eq_refl Hc) as Q.
  rewrite (unit_offset 6 _ _ _ _ _ _ _ m0 E ltac:(lia)) in Q. change (contracted (label_number 6 None) 0 None 2) with (Rows 2) in Q. destruct Q as (y & m' & F & _).
  exists m0, (@mkT K [2; 6; 1] (fun _ => 1%R)), (@mkT K [2; 6; 1] (fun _ => 1%R)), y, m'. split; [exact E|]. split; [exact Ha|]. split; [exact Hc|]. split; [exact Hi|]. split; [reflexivity|exact F].
Qed.

Print Assumptions C71_returns. Print Assumptions C71_waiting. Print Assumptions C48_exact. Print Assumptions C51_lossless_exact. Print Assumptions C53_flip_exact. Print Assumptions C53_failed_flip_refuted.
