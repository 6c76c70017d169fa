(** * AdState: the invariant of an adaptive model, and its forward calls *)
From Coq Require Import Reals Lra.
From Verif Require Import Base Scalars Tensor Spec LinAlg Utils2Proofs Contractables ContrProofs Utils UtilsSpec UtilsProofs SvdProofs SvdFinal P_Svd TorchMps TmSpec TmProofs TmFinal Adaptive AdMerge AdSweep AdKinds AdSplit AdSpec AdUnmerge AdEqual AdFlip.

Lemma nth_map_seq {A} (f : nat -> A) n i d : i < n -> nth i (map f (seq 0 n)) d = f i.
Proof. intros Hi. rewrite (nth_indep _ d (f 0)) by (rewrite map_length, seq_length; exact Hi). rewrite map_nth, seq_nth by exact Hi. reflexivity. Qed.

Section Init.
  Notation K := R_cring.
  Notation mod_ := (module R_cring).
  Variables D F O : nat.
  Notation mequiv := (mequiv K D F O).
  Notation kinds := (kinds K).
  Lemma region_list_kinds n ub l : region_list K n D F ub l -> Forall (wf K D F O) l /\ Forall (unm K) l /\ region_core_len K l = n /\ kinds l = (match n with 0 => [] | _ => [KR n] end).
  Proof.
    destruct n as [|n]; cbn [region_list]; [intros ->; repeat split; constructor|].
    intros (m & -> & t & b & -> & Ht & Hb). split; [|split; [|split]].
    - constructor; [|constructor]. exists (S n). split; [lia|]. split; [exact Ht|exact Hb].
    - repeat constructor.
    - unfold region_core_len. cbn [fold_right mod_core_len mod_len]. unfold size. rewrite Ht. cbn [nth]. lia.
    - cbn [AdMerge.kinds map AdMerge.kind_of]. unfold size. rewrite Ht. reflexivity.
  Qed.
  Lemma mks_region s n : mks s (match n with 0 => [] | _ => [KR n] end) = rk (s mod 2) n.
  Proof. destruct n; [reflexivity|]. cbn [mks]. apply app_nil_r. Qed.
  Lemma form_merge N lab ub mods o : o < 2 -> lab <= N -> mps_form K N O D F lab ub mods ->
    (1 < N -> exists l, merge_mods K o mods = Ok l /\ merged_list D F O o lab (N - lab) l /\ mequiv mods l).
  Proof.
    intros Ho Hle (l & t & r & -> & Hl & Ht & Hr) HN. change ([OutputSite t] ++ r) with (OutputSite t :: r).
    destruct (region_list_kinds _ _ _ Hl) as (W1 & U1 & C1 & K1). destruct (region_list_kinds _ _ _ Hr) as (W2 & U2 & C2 & K2).
    destruct (merge_mods_ok K D F O o l t r lab Ho W1 U1 W2 U2 Ht C1) as [M _]. rewrite K1, K2, !mks_region in M. rewrite (Nat.mod_small o 2) in M by exact Ho.
    change (fmerge _ _) with (mk o lab (N - lab)) in M. destruct (mk_facts o lab (N - lab) Ho ltac:(lia)) as (_ & L2 & _).
    destruct (M L2) as (m & Em & Km & Qm). exists m. split; [exact Em|]. split; [|exact Qm]. split; [apply Qm|exact Km].
  Qed.
  Lemma form_merge_one lab ub mods : lab <= 1 -> mps_form K 1 O D F lab ub mods -> 
    exists a b, merge_mods K 0 mods = Ok a /\ merge_mods K 1 mods = Ok b /\ region_len K a = 0.
  Proof.
    intros Hle (l & t & r & -> & Hl & Ht & Hr). change ([OutputSite t] ++ r) with (OutputSite t :: r).
    destruct (region_list_kinds _ _ _ Hl) as (W1 & U1 & C1 & K1). destruct (region_list_kinds _ _ _ Hr) as (W2 & U2 & C2 & K2).
    assert (Q : forall o, o < 2 -> let k := fmerge (bit o) (mks o (kinds l) ++ KO :: mks (o + lab + 1) (kinds r)) in
       (2 <= List.length k -> exists m, merge_mods K o (l ++ OutputSite t :: r) = Ok m /\ kinds m = k /\ mequiv (l ++ OutputSite t :: r) m) /\
       (List.length k <= 1 -> merge_mods K o (l ++ OutputSite t :: r) = Ok [])) by (intros o Ho; exact (merge_mods_ok K D F O o l t r lab Ho W1 U1 W2 U2 Ht C1)).
    pose proof (Q 0 ltac:(lia)) as Q0. pose proof (Q 1 ltac:(lia)) as Q1. cbv zeta in Q0, Q1. clear Q. rewrite K1, K2, !mks_region in Q0, Q1.
    clear C1 C2. assert (Hlab : lab = 0 \/ lab = 1) by lia. destruct Hlab as [E|E]; subst lab;
    (match type of Q0 with context [fmerge ?a ?b] => let v := eval vm_compute in (fmerge a b) in change (fmerge a b) with v in Q0 end);
    (match type of Q1 with context [fmerge ?a ?b] => let v := eval vm_compute in (fmerge a b) in change (fmerge a b) with v in Q1 end); cbn [List.length] in Q0, Q1;
    destruct Q0 as [_ Q0]; destruct Q1 as [Q1 _]; rewrite (Q0 (le_S _ _ (le_n _))); destruct (Q1 (le_n _)) as (m & -> & _ & Q);
    exists [], m; (split; [reflexivity|]; split; [reflexivity|reflexivity]).
  Qed.
End Init.

Lemma mk_first o p q r : o < 2 -> 1 < p + q -> 0 < p -> mk o p q <> KO :: r.
Proof.
  intros Ho Hn Hp. unfold mk. pose proof (rk_form o p Ho) as Fp.
  pose proof (rk_form ((o + p + 1) mod 2) q ltac:(apply Nat.mod_upper_bound; lia)) as Fq. rewrite par_after in Fq by exact Ho.
  set (b := bit o) in *. clearbody b. set (l := rk o p) in *. clearbody l. set (k := rk ((o + p + 1) mod 2) q) in *. clearbody k.
  set (b' := negb (xorb b (Nat.odd p))) in *.
  destruct Fp; unfold b' in Fq; clear b'; parity Fq; try destruct b; cbn [negb] in Fq; inversion Fq; subst; try lia;
  unfold fmerge; cbn -[Nat.mul Nat.add]; discriminate.
Qed.

Section State.
  Notation K := R_cring.
  Notation T := (tensor R_ops).
  Notation mod_ := (module R_cring).
  Variable svd : T -> T * T * T.

  Record good_region (D F O p q : nat) (g : region) : Prop := {
    gr_off : g_offset g < 2;
    gr_0 : merged_list D F O 0 p q (g_list0 g);
    gr_1 : merged_list D F O 1 p q (g_list1 g) }.
  Lemma gr_list D F O p q g o : good_region D F O p q g -> o < 2 -> merged_list D F O o p q (g_list g o).
  Proof. intros [_ H0 H1] Ho. unfold g_list. destruct o as [|[|o]]; [exact H0|exact H1|lia]. Qed.
  Lemma gr_active D F O p q g : good_region D F O p q g -> merged_list D F O (g_offset g) p q (g_active g).
  Proof. intros H. apply (gr_list D F O p q g _ H). apply H. Qed.

  Record inv (N O D F p : nat) (m : ad_mps) : Prop := {
    i_in : m_input (a_cfg m) = N; i_out : m_output (a_cfg m) = O; i_bond : m_bond (a_cfg m) = D; i_feat : m_feature (a_cfg m) = F;
    i_lab : m_label (a_cfg m) = p; i_le : p <= N;
    i_reg : good_region D F O p (N - p) (a_reg m);
    i_bonds : List.length (a_bonds m) = N + 2 /\ Forall (fun d => 1 <= d <= D) (a_bonds m);
    i_svs : List.length (a_svs m) = N + 2 /\ Forall (fun v => shp v = [D]) (a_svs m) }.

  Lemma init_inv N O D F per par label path std cutoff thr rnd m :
    ad_init N O D F per par label path std cutoff thr rnd = Ok m -> 1 < N -> 0 < D ->
    exists mods, let lab := match label with None => N / 2 | Some z => Z.to_nat z end in
    build_modules K true N O D F lab std false rnd = Ok mods /\ mps_form K N O D F lab false mods /\
    inv N O D F lab m /\ mequiv K D F O mods (g_list0 (a_reg m)) /\ mequiv K D F O mods (g_list1 (a_reg m)) /\
    g_offset (a_reg m) = 0 /\ g_counter (a_reg m) = 0%Z /\ g_threshold (a_reg m) = thr /\ g_cutoff (a_reg m) = cutoff /\
    m_periodic (a_cfg m) = per /\ m_parallel (a_cfg m) = par /\ m_path (a_cfg m) = path /\ m_fmap (a_cfg m) = None /\
    (forall i, i < N + 2 -> nth i (a_bonds m) 0 = if negb per && ((i =? 0) || (i =? N + 1)) then 1 else D) /\
    a_svs m = repeat (mkT [D] (fun _ => (-1)%R)) (N + 2).
  Proof.
    intros E HN HD. unfold ad_init, label_of in E. set (l := match label with None => _ | Some z => z end) in E.
    destruct ((0 <=? l)%Z && (l <=? Z.of_nat N)%Z) eqn:El; cbn [assert_ rbind] in E; [|discriminate].
    apply andb_prop in El as [E0 E1]. apply Z.leb_le in E0, E1.
    assert (El : Z.to_nat l = match label with None => N / 2 | Some z => Z.to_nat z end) by (unfold l; destruct label; [reflexivity|]; apply Nat2Z.id).
    rewrite El in E. set (lab := match label with None => N / 2 | Some z => Z.to_nat z end) in *.
    destruct (build_modules K true N O D F lab std false rnd) as [mods|] eqn:Eb; cbn [rbind] in E; [|discriminate].
    pose proof (build_form K _ _ _ _ _ _ _ _ _ _ Eb) as Hf. assert (Hle : lab <= N) by lia.
    destruct (form_merge D F O N lab false mods 0 ltac:(lia) Hle Hf HN) as (l0 & M0 & K0 & Q0).
    destruct (form_merge D F O N lab false mods 1 ltac:(lia) Hle Hf HN) as (l1 & M1 & K1 & Q1).
    unfold region_init in E. rewrite M0, M1 in E. cbn [rbind] in E.
    destruct (region_len K (g_active (mkReg l0 l1 0 0%Z thr cutoff)) =? N); cbn [assert_ rbind] in E; [|discriminate].
    destruct (check_path N path) as [[]|]; cbn [rbind] in E; [|discriminate].
    set (bonds := if per then _ else _) in E.
    assert (Hb : forall i, i < N + 2 -> nth i bonds 0 = if negb per && ((i =? 0) || (i =? N + 1)) then 1 else D).
    { intros i Hi. unfold bonds. destruct per; cbn [negb andb]; [revert Hi; clear; generalize (N + 2); intros n; revert i; induction n as [|n IH]; intros [|i] Hi; try lia; [reflexivity|apply IH; lia]|].
      rewrite nth_map_seq by exact Hi. reflexivity. }
    assert (Lb : List.length bonds = N + 2) by (unfold bonds; destruct per; [apply repeat_length|rewrite map_length; apply seq_length]).
    injection E as <-. exists mods. cbv zeta. cbn [a_reg g_list0 g_list1 g_offset g_counter g_threshold g_cutoff a_cfg m_periodic m_parallel m_path m_fmap a_bonds a_svs].
    split; [exact Eb|]. split; [exact Hf|]. split.
    { constructor; cbn [a_cfg m_input m_output m_bond m_feature m_label a_reg a_bonds a_svs]; try reflexivity; [exact Hle| | |].
      - constructor; cbn [g_offset g_list0 g_list1]; [lia|exact K0|exact K1].
      - split; [exact Lb|]. apply Forall_forall. intros d Hd. apply (In_nth _ _ 0) in Hd as (i & Hi & <-). rewrite Lb in Hi. rewrite Hb by exact Hi.
        destruct (_ && _); lia.
      - split; [apply repeat_length|]. apply Forall_forall. intros v Hv. apply repeat_spec in Hv. subst v. reflexivity. }
    split; [exact Q0|]. split; [exact Q1|]. do 8 (split; [reflexivity|]). split; [exact Hb|reflexivity].
  Qed.

  (** *** embedding *)
  Lemma embed_shape c (x e : tensor K) : mps_embed K c x = Ok e -> exists B, shp e = [B; m_input c; m_feature c].
  Proof.
    unfold mps_embed. intros E. destruct ((ndim x =? 2) || (ndim x =? 3)) eqn:Ed; cbn [assert_ rbind] in E; [|discriminate E].
    destruct (Nat.eqb_spec (size 1 x) (m_input c)) as [E1|]; cbn [assert_ rbind] in E; [|discriminate E].
    destruct (Nat.eqb_spec (ndim x) 3) as [E3|N3].
    - destruct (Nat.eqb_spec (size 2 x) (m_feature c)) as [E2|]; [|discriminate E]. injection E as <-.
      unfold ndim, size in *. destruct (shp x) as [|b [|n [|f [|]]]]; try discriminate E3. cbn [nth] in *. exists b. congruence.
    - destruct (m_fmap c) as [f|].
      + destruct (embed_map K f x) as [y|]; cbn [rbind] in E; [|discriminate E]. destruct (list_eqb _ _) eqn:El; cbn [assert_ rbind] in E; [|discriminate E].
        injection E as <-. apply list_eqb_eq in El. exists (size 0 x). exact El.
      + destruct (Nat.eqb_spec (m_feature c) 2) as [E2|]; [|discriminate E]. injection E as <-. exists (size 0 x).
        unfold embed_default. cbn [shp]. rewrite E2. exact (f_equal (fun k => [size 0 x; k; 2]) E1).
  Qed.

  (** *** contraction of a merged list *)
  Definition closed (D : nat) (per : bool) (c : list (nat * mat K)) : R := if per then mtrace D (chain c) else chain c 0 0.
  Lemma closed_eqc D per a b : 0 < D -> eqc K D a b -> closed D per a = closed D per b.
  Proof.
    intros HD (_ & _ & E). unfold closed. destruct per; [|apply E; assumption]. unfold mtrace. apply (bsum_ext (S := R_cring)). intros i Hi. apply E; assumption.
  Qed.
  Lemma ready_or (l : list mod_) B g p : (0 < p -> match l with m :: _ => lone K m = false | [] => True end) -> 0 < p \/ g = Some B -> ready K l B g.
  Proof. intros H Hg. destruct l as [|m l]; [exact Logic.I|]. cbn [ready]. intros Hl. destruct Hg as [Hp|Hg]; [|exact Hg]. rewrite (H Hp) in Hl. discriminate Hl. Qed.
  Lemma merged_first D F O o p q l : o < 2 -> 1 < p + q -> 0 < p -> merged_list D F O o p q l -> match l with m :: _ => lone K m = false | [] => True end.
  Proof.
    intros Ho Hn Hp [W Hk]. destruct l as [|m l]; [exact Logic.I|]. destruct m; try reflexivity. exfalso.
    cbn [AdMerge.kinds map AdMerge.kind_of] in Hk. symmetry in Hk. revert Hk. apply mk_first; assumption.
  Qed.
  Lemma merged_forward D F O o p q l per par (x : tensor K) B g : o < 2 -> 1 < p + q -> 0 < D -> merged_list D F O o p q l ->
    shp x = [B; p + q; F] -> 0 < p \/ g = Some B ->
    exists out, region_forward K l per par x g = (Ok out, Some B) /\ shp out = [B; O] /\
      forall b c, b < B -> c < O -> get out [b; c] = closed D per (csem_all K F l 0 (px_of K x b) c).
  Proof.
    intros Ho Hn HD Hm Hx Hg. pose proof (merged_good D F O o p q l Ho Hn Hm) as G.
    pose proof (merged_len D F O o p q l Ho Hn Hm) as Ln. rewrite <- Ln in Hx.
    assert (R : ready K l B g) by (apply (ready_or l B g p); [intros Hp; apply (merged_first D F O o p q); assumption|exact Hg]).
    assert (NR : Forall (no_region K) l) by (eapply Forall_impl; [|apply (merged_no_region D F O o p q l Ho Hn Hm)]; intros m Hm'; destruct m; exact Hm').
    destruct per.
    - assert (L2 : 2 <= List.length l) by (destruct (mk_facts o p q Ho Hn) as (_ & L2 & _); destruct Hm as [_ Hk]; rewrite <- (kinds_length K l), Hk; exact L2).
      destruct (region_ring K D F O l par x B g G L2 Hx R) as (out & E & Hs & Gv). exists out. split; [exact E|]. split; [exact Hs|].
      intros b c Hb Hc. rewrite Gv by assumption. unfold closed. rewrite csem_sem by exact NR. reflexivity.
    - destruct (region_open K D F O l par x B g G HD Hx R) as (out & E & Hs & Gv). exists out. split; [exact E|]. split; [exact Hs|].
      intros b c Hb Hc. rewrite Gv by assumption. unfold closed. rewrite csem_sem by exact NR. reflexivity.
  Qed.
End State.
