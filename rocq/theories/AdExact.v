(** * AdExact: the exact result of a call of an adaptive model, for every remembered batch size *)
From Coq Require Import Reals Lra.
From Verif Require Import Base Scalars Tensor Spec LinAlg Utils2Proofs Contractables ContrProofs Utils UtilsSpec UtilsProofs SvdProofs SvdFinal P_Svd TorchMps TmSpec TmProofs TmFinal TmStale Adaptive AdMerge AdSweep AdKinds AdSplit AdSpec AdUnmerge AdEqual AdFlip AdState AdCall AdHealthy.
From Verif Require P_Mps4.
Notation broadcast := P_Mps4.broadcast.
Notation source := P_Mps4.source.
Notation Rows := P_Mps4.Rows.
Notation Raises := P_Mps4.Raises.

(** *** specification *)
(** The result of contracting the cores that are merged at offset [off]: with the output core at the
    left end ([lab] = 0) and not merged with its neighbour (off = 1) it is expanded to the
    batch size [g] remembered from the last call. *)
Definition contracted (lab off : nat) (g : option nat) (B : nat) : P_Mps4.outcome :=
  if (lab =? 0) && (off =? 1) then
    match g with
    | None => Raises RuntimeError
    | Some B' => match broadcast B' B with Some n => Rows n | None => Raises RuntimeError end
    end
  else Rows B.

Lemma mk_lone o p q r : o < 2 -> 1 < p + q -> mk o p q = KO :: r -> p = 0 /\ o = 1.
Proof.
  intros Ho Hn E. destruct (Nat.eq_dec p 0) as [->|Hp]; [|exfalso; revert E; apply mk_first; lia]. split; [reflexivity|].
  destruct o as [|[|o]]; [exfalso|reflexivity|lia]. cbn [Nat.add] in Hn. unfold mk in E.
  pose proof (rk_form ((0 + 0 + 1) mod 2) q ltac:(cbn; lia)) as Fq. change ((0 + 0 + 1) mod 2) with 1 in *. cbn [bit] in Fq.
  set (k := rk 1 q) in *. clearbody k. cbn [rk app] in E. destruct q as [|[|q]]; [lia|lia|].
  inversion Fq; subst; unfold fmerge in E; cbn -[Nat.mul Nat.add] in E; try lia; discriminate E.
Qed.
Lemma mk_01 q : 1 < q -> exists r, mk 1 0 q = KO :: r.
Proof.
  intros Hn. unfold mk. pose proof (rk_form ((1 + 0 + 1) mod 2) q ltac:(cbn; lia)) as Fq. change ((1 + 0 + 1) mod 2) with 0 in *.
  set (k := rk 0 q) in *. clearbody k. cbn [rk app]. inversion Fq; subst; try (exfalso; lia); unfold fmerge; cbn -[Nat.mul Nat.add]; eexists; reflexivity.
Qed.

Section Exact.
  Notation K := R_cring.
  Notation mod_ := (module R_cring).
  Lemma first_lone D F O o p q l : o < 2 -> 1 < p + q -> merged_list D F O o p q l ->
    if (p =? 0) && (o =? 1) then exists t rest, l = OutputSite t :: rest else match l with m :: _ => lone K m = false | [] => True end.
  Proof.
    intros Ho Hn [W Hk]. destruct ((p =? 0) && (o =? 1)) eqn:E.
    - apply andb_prop in E as [E0 E1]. apply Nat.eqb_eq in E0, E1. subst p o. destruct (mk_01 q Hn) as (r & E). rewrite E in Hk.
      destruct l as [|m l]; [discriminate Hk|]. cbn [AdMerge.kinds map] in Hk. injection Hk as Hm _. destruct m; cbn in Hm; try discriminate Hm. eauto.
    - destruct l as [|m l]; [exact Logic.I|]. destruct m; try reflexivity. exfalso. cbn [AdMerge.kinds map AdMerge.kind_of] in Hk.
      symmetry in Hk. apply mk_lone in Hk as [-> ->]; [discriminate E|assumption|assumption].
  Qed.

  Theorem merged_exact_state D F O o p q l per par (x : tensor K) B g : o < 2 -> 1 < p + q -> 0 < D -> merged_list D F O o p q l ->
    shp x = [B; p + q; F] ->
    match contracted p o g B with
    | Raises e => region_forward K l per par x g = (Err e, match g with None => None | Some _ => Some B end)
    | Rows n => exists out, region_forward K l per par x g = (Ok out, Some n) /\ shp out = [n; O] /\
        forall b c, b < n -> c < O -> get out [b; c] = closed D per (csem_all K F l 0 (px_of K x (source B b)) c)
    end.
  Proof.
    intros Ho Hn HD Hm Hx. pose proof (merged_good D F O o p q l Ho Hn Hm) as G. pose proof (first_lone D F O o p q l Ho Hn Hm) as Fl.
    pose proof (merged_len D F O o p q l Ho Hn Hm) as Ln. rewrite <- Ln in Hx.
    assert (NR : Forall (no_region K) l) by (eapply Forall_impl; [|apply (merged_no_region D F O o p q l Ho Hn Hm)]; intros m Hm'; destruct m; exact Hm').
    assert (L2 : 2 <= List.length l) by (destruct (mk_facts o p q Ho Hn) as (_ & L2 & _); destruct Hm as [_ Hk]; rewrite <- (kinds_length K l), Hk; exact L2).
    unfold contracted. destruct ((p =? 0) && (o =? 1)).
    - destruct Fl as (t & rest & El). destruct G as (W & Ns & Oo). rewrite El in W, Ns, Oo. apply Forall_inv in W as Ht. apply Forall_inv_tail in W. apply Forall_inv_tail in Ns.
      cbn [wf_mod] in Ht. assert (Or : outs K rest = []) by (unfold outs in *; cbn [filter is_output List.length] in Oo; destruct (filter _ rest); [reflexivity|discriminate Oo]).
      assert (Hne : rest <> []) by (intros ->; rewrite El in L2; cbn in L2; lia). rewrite El in Hx.
      destruct g as [B'|].
      + rewrite P_Mps4.broadcast_bdim. destruct per.
        * pose proof (stale_ring K D F O t rest par x B B' Ht Hne W Ns Or Hx) as SR. destruct (bdim B' B) as [Bc|]; [|rewrite El; exact SR].
          destruct SR as (out & Eo & So & Go). exists out. rewrite El at 1. split; [exact Eo|]. split; [exact So|]. intros b c Hb Hc. rewrite Go by assumption.
          unfold closed. rewrite csem_sem by exact NR. rewrite El. reflexivity.
        * pose proof (stale_open K D F O t rest par x B B' Ht Hne W Ns Or HD Hx) as SR. destruct (bdim B' B) as [Bc|]; [|rewrite El; exact SR].
          destruct SR as (out & Eo & So & Go). exists out. rewrite El at 1. split; [exact Eo|]. split; [exact So|]. intros b c Hb Hc. rewrite Go by assumption.
          unfold closed. rewrite csem_sem by exact NR. rewrite El. reflexivity.
      + rewrite El. unfold region_forward. unfold mbind at 1 2, lift at 1 2, ndim, size. rewrite Hx. cbn [List.length Nat.eqb nth assert_].
        rewrite Nat.eqb_refl. cbn [assert_]. unfold mbind at 1. 
        cbn [mods_forward mod_len Nat.eqb mod_forward]. unfold mbind, output_core, ndim. rewrite Ht. cbn [List.length Nat.eqb orb].
        unfold init, ndim. rewrite Ht. reflexivity.
    - assert (R : ready K l B g) by (destruct l as [|m' l']; [exact Logic.I|]; cbn [ready]; intros Hl; congruence).
      assert (Sb : forall b, b < B -> source B b = b) by (intros b Hb; unfold source; destruct (Nat.eqb_spec B 1) as [E|]; [lia|reflexivity]).
      destruct per.
      + destruct (region_ring K D F O l par x B g G L2 Hx R) as (out & E & Hs & Gv). exists out. split; [exact E|]. split; [exact Hs|].
        intros b c Hb Hc. rewrite Gv by assumption. unfold closed. rewrite csem_sem by exact NR. rewrite Sb by exact Hb. reflexivity.
      + destruct (region_open K D F O l par x B g G HD Hx R) as (out & E & Hs & Gv). exists out. split; [exact E|]. split; [exact Hs|].
        intros b c Hb Hc. rewrite Gv by assumption. unfold closed. rewrite csem_sem by exact NR. rewrite Sb by exact Hb. reflexivity.
  Qed.
  Theorem merged_exact D F O o p q l per par (x : tensor K) B g : o < 2 -> 1 < p + q -> 0 < D -> merged_list D F O o p q l ->
    shp x = [B; p + q; F] ->
    match contracted p o g B with
    | Raises e => exists g', region_forward K l per par x g = (Err e, g')
    | Rows n => exists out, region_forward K l per par x g = (Ok out, Some n) /\ shp out = [n; O] /\
        forall b c, b < n -> c < O -> get out [b; c] = closed D per (csem_all K F l 0 (px_of K x (source B b)) c)
    end.
  Proof.
    intros Ho Hn HD Hm Hx. pose proof (merged_exact_state D F O o p q l per par x B g Ho Hn HD Hm Hx) as Q. destruct (contracted p o g B); [exact Q|eexists; exact Q].
  Qed.
End Exact.

Section Calls.
  Notation K := R_cring.
  Notation T := (tensor R_ops).
  Variable svd : T -> T * T * T.
  Variables N O D F p : nat.
  Hypotheses (HD : 0 < D) (HN : 1 < N).
  (** the outputs [y] of a call are what the cores of the active list of [m] give on the embedded input [e] *)
  Definition of_cores (m : ad_mps) (e y : tensor K) (B n : nat) : Prop :=
    forall b c, b < n -> c < O -> get y [b; c] = closed D (m_periodic (a_cfg m)) (csem_all K F (g_active (a_reg m)) 0 (px_of K e (source B b)) c).

  Lemma inv_sites m : inv N O D F p m -> 1 < p + (N - p) /\ N = p + (N - p).
  Proof. clear HD. intros Hi. pose proof (i_le _ _ _ _ _ _ Hi). lia. Qed.

  Lemma call_no_flip_exact m x e g B : inv N O D F p m -> embedded_input m x = Ok e -> size 0 e = B -> ~ flip_due m ->
    match contracted p (g_offset (a_reg m)) g B with
    | Raises ex => exists g', ad_forward svd m x g = ((Err ex, g'), Some (counted m B))
    | Rows n => exists y, ad_forward svd m x g = ((Ok y, Some n), Some (counted m B)) /\ shp y = [n; O] /\ of_cores m e y B n
    end.
  Proof.
    intros Hi He HB Hf. destruct (given_shape N O D F p m x e Hi He) as (B' & Hs & HB'). rewrite HB in HB'. subst B'.
    destruct (inv_sites m Hi) as [Hpq Ep]. rewrite Ep in Hs at 1.
    pose proof (merged_exact D F O _ p (N - p) (g_active (a_reg m)) (m_periodic (a_cfg m)) (m_parallel (a_cfg m)) e B g (gr_off _ _ _ _ _ _ (i_reg _ _ _ _ _ _ Hi)) Hpq HD (gr_active _ _ _ _ _ _ (i_reg _ _ _ _ _ _ Hi)) Hs) as Ex.
    assert (X : (g_threshold (a_reg m) <=? g_counter (a_reg m))%Z = false) by (apply Z.leb_gt; unfold flip_due in Hf; lia).
    destruct (contracted p (g_offset (a_reg m)) g B) as [n|ex].
    - destruct Ex as (y & Ey & Hy & Gy). exists y. split; [|split; assumption]. unfold ad_forward. fold (embedded_input m x). rewrite He. unfold region_step.
      rewrite X, HB. change (g_active (mkReg _ _ _ _ _ _)) with (g_active (a_reg m)). rewrite Ey. reflexivity.
    - destruct Ex as (g' & Ey). exists g'. unfold ad_forward. fold (embedded_input m x). rewrite He. unfold region_step.
      rewrite X, HB. change (g_active (mkReg _ _ _ _ _ _)) with (g_active (a_reg m)). rewrite Ey. reflexivity.
  Qed.

  (** a call that returns, whatever torch.svd does *)
  Lemma call_returns m x e g B y g' m' : inv N O D F p m -> embedded_input m x = Ok e -> size 0 e = B -> ad_forward svd m x g = ((Ok y, g'), Some m') ->
    exists n, contracted p (g_offset (a_reg m')) g B = Rows n /\ g' = Some n /\ shp y = [n; O] /\ of_cores m' e y B n.
  Proof.
    intros Hi He HB Ef. destruct (given_shape N O D F p m x e Hi He) as (B' & Hs & HB'). rewrite HB in HB'. subst B'.
    destruct (inv_sites m Hi) as [Hpq Ep]. rewrite Ep in Hs at 1.
    destruct (call_facts svd N O D F p m x g _ m' HD HN Hi Ef) as (Hi' & Ec & _).
    pose proof (merged_exact D F O _ p (N - p) (g_active (a_reg m')) (m_periodic (a_cfg m)) (m_parallel (a_cfg m)) e B g (gr_off _ _ _ _ _ _ (i_reg _ _ _ _ _ _ Hi')) Hpq HD (gr_active _ _ _ _ _ _ (i_reg _ _ _ _ _ _ Hi')) Hs) as Ex.
    assert (Er : region_forward K (g_active (a_reg m')) (m_periodic (a_cfg m)) (m_parallel (a_cfg m)) e g = (Ok y, g')).
    { unfold ad_forward in Ef. fold (embedded_input m x) in Ef. rewrite He in Ef. destruct (region_step svd (a_reg m) (size 0 e)) as [[reg info]|]; [|discriminate Ef].
      destruct (region_forward K (g_active reg) _ _ e g) as [[y1|e1] g1] eqn:E1; [|discriminate Ef]. destruct info as [[new svs]|].
      - destruct (update_lists m new svs) as [[b s]|]; [|discriminate Ef]. injection Ef as <- <- <-. exact E1.
      - injection Ef as <- <- <-. exact E1. }
    unfold of_cores. rewrite Ec. destruct (contracted p (g_offset (a_reg m')) g B) as [n|ex].
    - destruct Ex as (y1 & E1 & Hy & Gy). rewrite Er in E1. injection E1 as <- ->. exists n. auto.
    - destruct Ex as (g1 & E1). rewrite Er in E1. discriminate E1.
  Qed.

  Hypotheses (HF : 0 < F) (HO : 0 < O).
  Lemma call_flip_exact m x e g B : inv N O D F p m -> (0 < g_cutoff (a_reg m))%R -> embedded_input m x = Ok e -> size 0 e = B -> flip_due m ->
    healthy svd D F O (g_cutoff (a_reg m)) (g_active (a_reg m)) -> ~ bad (g_offset (a_reg m)) p (N - p) ->
    exists m', g_offset (a_reg m') = (g_offset (a_reg m) + 1) mod 2 /\ a_cfg m' = a_cfg m /\
      ((lossless svd D F O (g_cutoff (a_reg m)) (g_active (a_reg m)) -> mequiv K D F O (g_active (a_reg m)) (g_active (a_reg m'))) /\
        exists l', Forall2 (truncated_mod svd D F O (g_cutoff (a_reg m))) (g_active (a_reg m)) l' /\ mequiv K D F O l' (g_active (a_reg m'))) /\
      match contracted p ((g_offset (a_reg m) + 1) mod 2) g B with
      | Raises ex => exists g', ad_forward svd m x g = ((Err ex, g'), Some m') /\ a_bonds m' = a_bonds m /\ a_svs m' = a_svs m
      | Rows n => exists y, ad_forward svd m x g = ((Ok y, Some n), Some m') /\ shp y = [n; O] /\ of_cores m' e y B n /\
          forall i, i < N + 2 ->
          match (if i =? 0 then None else pair_at (g_active (a_reg m)) (i - 1)) with
          | None => nth i (a_bonds m') 0 = nth i (a_bonds m) 0 /\ forall z, nth i (a_svs m') z = nth i (a_svs m) z
          | Some (pr, t) => exists S, spectrum svd D F O pr t S /\ kept D F O (g_cutoff (a_reg m)) pr S (nth i (a_bonds m') 0) (nth i (a_svs m') (mkT [] (fun _ => 0%R)))
          end
      end.
  Proof.
    intros Hi Hcut He HB Hf Hh Hb. destruct (given_shape N O D F p m x e Hi He) as (B' & Hs & HB'). rewrite HB in HB'. subst B'.
    destruct (inv_sites m Hi) as [Hpq Ep]. rewrite Ep in Hs at 1.
    pose proof (gr_off _ _ _ _ _ _ (i_reg _ _ _ _ _ _ Hi)) as Ho. pose proof (gr_active _ _ _ _ _ _ (i_reg _ _ _ _ _ _ Hi)) as Ga.
    set (o := g_offset (a_reg m)) in *. assert (Ho' : (o + 1) mod 2 < 2) by (apply Nat.mod_upper_bound; lia).
    pose proof (gr_list _ _ _ _ _ _ _ (i_reg _ _ _ _ _ _ Hi) Ho') as Gs.
    destruct (flip_ok svd D F O HD HF HO (g_cutoff (a_reg m)) Hcut o p (N - p) _ _ Ho Hpq Ga Hh Gs) as (u & bonds & svs & Eu & Ru & Wu & Lu & _ & Good & Bad).
    unfold flip_due in Hf. apply Z.leb_le in Hf. destruct (Good Hb) as (new & En & Gn & Qn). clear Bad.
    set (reg := if (o + 1) mod 2 =? 0 then mkReg new (stale svd (g_cutoff (a_reg m)) (g_active (a_reg m))) ((o + 1) mod 2) (g_counter (a_reg m) - g_threshold (a_reg m) + Z.of_nat B) (g_threshold (a_reg m)) (g_cutoff (a_reg m))
        else mkReg (stale svd (g_cutoff (a_reg m)) (g_active (a_reg m))) new ((o + 1) mod 2) (g_counter (a_reg m) - g_threshold (a_reg m) + Z.of_nat B) (g_threshold (a_reg m)) (g_cutoff (a_reg m))).
    assert (Es : region_step svd (a_reg m) B = Ok (reg, Some (None :: bonds, None :: svs))).
    { unfold region_step. rewrite Hf, Eu. cbn [rbind]. fold o. cbv zeta. destruct (merge_mods K ((o + 1) mod 2) u) as [n|e']; cbn [rbind] in En |- *; [|discriminate En]. rewrite En. reflexivity. }
    assert (Ea : g_active reg = new) by (unfold reg, g_active, g_list; destruct (Nat.eqb_spec ((o + 1) mod 2) 0) as [E|E]; cbn [g_offset g_list0 g_list1]; [rewrite E; reflexivity|]; apply Nat.eqb_neq in E; rewrite E; reflexivity).
    assert (Eof : g_offset reg = (o + 1) mod 2) by (unfold reg; destruct ((o + 1) mod 2 =? 0); reflexivity).
    pose proof (merged_exact D F O _ p (N - p) new (m_periodic (a_cfg m)) (m_parallel (a_cfg m)) e B g Ho' Hpq HD Gn Hs) as Ex.
    destruct (contracted p ((o + 1) mod 2) g B) as [n|ex].
    2: { destruct Ex as (g' & Ey). exists (with_reg m reg). split; [exact Eof|]. split; [reflexivity|]. split.
         - cbn [with_reg a_reg]. rewrite Ea. destruct Lu as [Lu (l' & Tl & Ql)]. split; [intros Hl; eapply mequiv_trans; [apply Lu; exact Hl|exact Qn]|]. exists l'. split; [exact Tl|]. eapply mequiv_trans; [exact Ql|exact Qn].
         - exists g'. split; [|split; reflexivity]. unfold ad_forward. fold (embedded_input m x). rewrite He, HB, Es, Ea, Ey. reflexivity. }
    destruct Ex as (y & Ey & Hy & Gy).
    destruct (i_bonds _ _ _ _ _ _ Hi) as [Lb Fb]. destruct (i_svs _ _ _ _ _ _ Hi) as [Ls Fs].
    destruct Ru as (R1 & R2 & R3). pose proof (merged_cores D F O o p (N - p) _ Ho Hpq Ga) as Cl. fold o in Cl. rewrite Cl in R1, R2, R3.
    assert (Hsv : forall i d, i < List.length (None :: bonds) -> nth i (None :: bonds) None = Some d -> exists w, nth i (None :: svs) None = Some w /\ shp w = [D]).
    { intros [|i] d Hii Hd; [discriminate Hd|]. cbn [nth List.length] in *. specialize (R3 i ltac:(lia)).
      destruct (pair_at (g_active (a_reg m)) i) as [[pr t]|]; [|congruence]. destruct R3 as (S & d' & v & _ & Kp & _ & Ev). exists v. split; [exact Ev|]. apply Kp. }
    assert (X2 : List.length (@None nat :: bonds) = List.length (@None T :: svs)) by (cbn [List.length]; f_equal; exact (eq_trans R1 (eq_sym R2))).
    assert (X1 : List.length (@None nat :: bonds) = List.length (a_bonds m)) by (cbn [List.length]; lia).
    assert (X3 : List.length (@None nat :: bonds) = List.length (a_svs m)) by (rewrite Ls; cbn [List.length]; lia).
    destruct (update_each_ok D (None :: bonds) (None :: svs) (a_bonds m) (a_svs m) X2 X1 X3 Hsv) as (b & s & Ue & Lb' & Ls' & Gu).
    exists (mkAd (a_cfg m) reg b s). split; [exact Eof|]. split; [reflexivity|]. split; [|exists y; split; [|split; [|split]]].
    + cbn [a_reg]. rewrite Ea. destruct Lu as [Lu (l' & Tl & Ql)]. split; [intros Hl; eapply mequiv_trans; [apply Lu; exact Hl|exact Qn]|]. exists l'. split; [exact Tl|]. eapply mequiv_trans; [exact Ql|exact Qn].
    + unfold ad_forward. fold (embedded_input m x). rewrite He, HB, Es, Ea, Ey. unfold update_lists.
      apply Nat.eqb_eq in X1. rewrite X1. cbn [assert_ rbind]. assert (X2' : (List.length (@None nat :: bonds) =? List.length (@None (tensor K) :: svs)) = true) by (apply Nat.eqb_eq; exact X2). rewrite X2'. cbn [assert_ rbind]. rewrite (i_bond _ _ _ _ _ _ Hi), Ue. reflexivity.
    + exact Hy.
    + unfold of_cores. cbn [a_reg a_cfg]. rewrite Ea. exact Gy.
    + intros i Hii. cbn [a_bonds a_svs]. assert (Hi' : i < List.length (@None nat :: bonds)) by (cbn [List.length]; lia). specialize (Gu i Hi').
      destruct i as [|i]; [cbn [nth Nat.eqb] in *; exact Gu|]. cbn [Nat.eqb]. replace (Datatypes.S i - 1) with i by lia. cbn [nth] in Gu. specialize (R3 i ltac:(lia)).
      destruct (pair_at (g_active (a_reg m)) i) as [[pr t]|].
      * destruct R3 as (S & d & v & Sp & Kp & E1 & E2). rewrite E1 in Gu. destruct Gu as [G1 G2]. exists S. split; [exact Sp|].
        rewrite G1. specialize (G2 (mkT [] (fun _ => 0%R))). pose proof (eq_trans G2 E2 : Some _ = Some (v : T)) as G3. injection G3 as G3. cbn [nth] in G3 |- *. revert G3. set (w := nth _ s _). intros G3. assert (Ew : w = v) by exact G3. rewrite Ew. exact Kp.
      * rewrite R3 in Gu. exact Gu.
  Qed.
End Calls.
