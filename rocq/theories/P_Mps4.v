(** * P_Mps4: C30-C34 for every history of calls.
    The exact result of MPS.forward (adaptive_mode = False) on an input of the documented shape,
    whatever batch size the earlier calls have left in the global variable. *)
From Verif Require Import Base Scalars Tensor Spec LinAlg Contractables ContrSpec ContrProofs ContrReduce Utils TorchMps TmSpec TmProofs TmFinal TmStale P_Mps P_Mps2 P_Mps3.

(** *** specification: broadcasting of two batch sizes, and the outcome of a call *)
Definition broadcast (B' B : nat) : option nat :=
  if B' =? B then Some B else if B' =? 1 then Some B else if B =? 1 then Some B' else None.
(** the row of the input (with B rows) that row b of a broadcast result comes from *)
Definition source (B b : nat) : nat := if B =? 1 then 0 else b.
Inductive outcome := Rows (n : nat) | Raises (e : exn).
(** [N] input_dim, [lab] label_site, [D] bond_dim, [per] periodic_bc, [B] the batch size of the
    input, [g] the batch size of the last call (None: there was none) *)
Definition expected (N lab D : nat) (per : bool) (g : option nat) (B : nat) : outcome :=
  match (if 0 <? lab then Some B else g) with
  | None => Raises RuntimeError
  | Some B' => if (lab =? 1) || (N - lab =? 1) then Raises AssertionError
               else if negb per && (D =? 0) then Raises IndexError
               else if N =? 0 then Rows B'
               else match broadcast B' B with Some n => Rows n | None => Raises RuntimeError end
  end.

Section P.
  Variable K : cring.
  Add Ring Kr : (rth K).
  Notation T := (tensor K).

  Lemma broadcast_bdim a b : broadcast a b = bdim a b.
  Proof.
    unfold broadcast, bdim. destruct (Nat.eqb_spec a b), (Nat.eqb_spec a 1), (Nat.eqb_spec b 1); subst; try reflexivity; try lia; congruence.
  Qed.
  Lemma source_bidx B b : source B b = bidx B b. Proof. reflexivity. Qed.

  Lemma embed_shape m y e : mps_embed K m y = Ok e -> exists B, shp e = [B; m_input m; m_feature m].
  Proof.
    unfold mps_embed. destruct (((ndim y =? 2) || (ndim y =? 3))%bool) eqn:E0; cbn [assert_ rbind]; [|discriminate].
    destruct (Nat.eqb_spec (size 1 y) (m_input m)) as [E1|]; cbn [assert_ rbind]; [|discriminate].
    destruct (Nat.eqb_spec (ndim y) 3) as [E3|E3].
    - destruct (Nat.eqb_spec (size 2 y) (m_feature m)) as [E2|]; [|discriminate]. intros E. injection E as <-.
      unfold ndim, size in *. destruct (shp y) as [|B [|n [|f [|]]]]; try discriminate E3. cbn [nth] in *. exists B. rewrite E1, E2. reflexivity.
    - destruct (m_fmap m) as [f|].
      + destruct (embed_map K f y) as [q|]; cbn [rbind]; [|discriminate].
        destruct (list_eqb (shp q) [size 0 y; m_input m; m_feature m]) eqn:E; cbn [assert_ rbind]; [|discriminate]. intros Q. injection Q as <-.
        apply list_eqb_eq in E. eauto.
      + destruct (Nat.eqb_spec (m_feature m) 2) as [E2|]; [|discriminate]. intros E. injection E as <-. exists (size 0 y). rewrite <- E1, E2. reflexivity.
  Qed.

  (** *** the failures *)
  Lemma err_app x e : forall q q' ind g0, (exists g', mods_forward K q ind x g0 = (Err e, g')) -> exists g', mods_forward K (q ++ q') ind x g0 = (Err e, g').
  Proof.
    induction q as [|a q IH]; intros q' ind g0 (g' & E); [discriminate E|]. cbn [app mods_forward] in *. unfold mbind in *.
    destruct (mod_forward K a _ g0) as [[at'|ex] g1]; [|injection E as -> ->; eauto].
    destruct (mods_forward K q (ind + mod_len a) x g1) as [[lq|ex] g2] eqn:Eq; [discriminate E|]. injection E as -> ->.
    destruct (IH q' _ _ (ex_intro _ _ Eq)) as (g3 & ->). eauto.
  Qed.
  Lemma err_skip x e : forall q q' ind g0 lq g1, mods_forward K q ind x g0 = (Ok lq, g1) ->
    (exists g', mods_forward K q' (ind + region_len K q) x g1 = (Err e, g')) -> exists g', mods_forward K (q ++ q') ind x g0 = (Err e, g').
  Proof.
    induction q as [|a q IH]; intros q' ind g0 lq g1 E (g' & E').
    - injection E as _ <-. cbn [region_len fold_right] in E'. rewrite Nat.add_0_r in E'. eauto.
    - cbn [app mods_forward] in *. unfold mbind in *. destruct (mod_forward K a _ g0) as [[at'|ex] g2]; [|discriminate].
      destruct (mods_forward K q (ind + mod_len a) x g2) as [[lq'|ex] g3] eqn:Eq; [|discriminate]. injection E as _ <-.
      destruct (IH q' _ _ _ _ Eq) as (g4 & ->); [|eauto]. exists g'. cbn [region_len fold_right] in E'. unfold region_len. rewrite <- E'. f_equal. lia.
  Qed.
  Lemma short_fails D F ub q x B N ind g0 : shp x = [B; N; F] -> region_list K 1 D F ub q -> exists g', mods_forward K q ind x g0 = (Err AssertionError, g').
  Proof.
    intros Hx (mm & -> & t' & b & -> & Hsh & _). cbn [mods_forward mod_len]. unfold size. rewrite Hsh. cbn [nth Nat.eqb].
    exists g0. unfold mbind. cbn [mod_forward]. unfold mbind, lift, ndim, selE. cbn [shp]. rewrite Hx. reflexivity.
  Qed.
  Lemma core_alone t O D B' ind (x : T) : shp t = [O; D; D] -> exists v, mods_forward K [OutputSite t] ind x (Some B') = (Ok [mkA KOutputCore v "bolr"], Some B') /\ shp v = [B'; O; D; D].
  Proof.
    intros Ht. destruct (expand_batch K t B' 1 [O; D; D] Ht ltac:(lia)) as (v & Ev & Hv & Gv). exists v. split; [|exact Hv].
    cbn [mods_forward mod_len Nat.eqb mod_forward]. unfold mbind. unfold output_core, ndim. rewrite Ht. cbn [List.length Nat.eqb orb].
    rewrite (init_short K KOutputCore t "bolr" B' [O; D; D] (Some B') v Ht) by (try discriminate; try reflexivity; exact Ev). reflexivity.
  Qed.
  Lemma zero_end a B out : typed a B 0 0 out -> is_mid K a -> end_vec K a "l"%char = Err IndexError.
  Proof.
    intros Ha Hm. unfold end_vec. inversion Ha; subst; unfold is_mid in Hm; cbn [a_bond] in Hm; try (exfalso; destruct Hm as [E|[E|E]]; discriminate E);
      cbn [a_bond chars list_ascii_of_string index_of Ascii.eqb Bool.eqb option_map a_ten]; unfold size; rewrite H; reflexivity.
  Qed.

  Section Model.
    Variables (N O D F lab : nat) (per ub : bool) (m : mps K).
    Variables (par0 : bool) (path : mpath).
    Hypothesis Hb : built K N O D F per par0 lab path ub m.
    Notation mods := (m_modules m).

    Lemma unfold_region x B per' p g : shp x = [B; N; F] ->
      region_forward K mods per' p x g = mbind (mods_forward K mods 0 x) (fun l =>
        if per' then mbind (lift (contractable_list K (map Atom l))) (fun c => mbind (reduce K true c) (fun z => lift (trace_lr K z)))
        else match l, rev l with
             | a0 :: _, a1 :: _ =>
                 let! v0 := lift (end_vec K a0 "l"%char) in let! v1 := lift (end_vec K a1 "r"%char) in
                 let! e0 := edge_vec K v0 true in let! e1 := edge_vec K v1 false in
                 let! c := lift (contractable_list K (map Atom (e0 :: l ++ [e1]))) in
                 let! z := reduce K p c in
                 match z with Atom a => ret (a_ten a) | _ => raise AttributeError end
             | _, _ => raise IndexError
             end) g.
    Proof.
      intros Hx. unfold region_forward. unfold mbind at 1 2, lift at 1 2, ndim, size. rewrite Hx. cbn [List.length Nat.eqb nth assert_].
      rewrite (form_len K _ _ _ _ _ _ _ (b_le K _ _ _ _ _ _ _ _ _ _ Hb) (b_form K _ _ _ _ _ _ _ _ _ _ Hb)), Nat.eqb_refl. reflexivity.
    Qed.
    Lemma fails x B e : shp x = [B; N; F] -> forall g, (exists g', mods_forward K mods 0 x g = (Err e, g')) ->
      exists g', forall p, region_forward K mods per p x g = (Err e, g').
    Proof. intros Hx g (g' & E). exists g'. intros p. rewrite (unfold_region x B per p g Hx). unfold mbind. rewrite E. reflexivity. Qed.
    Lemma fails_end x B a0 l : shp x = [B; N; F] -> per = false -> forall g g', mods_forward K mods 0 x g = (Ok (a0 :: l), g') ->
      end_vec K a0 "l"%char = Err IndexError -> forall p, region_forward K mods per p x g = (Err IndexError, g').
    Proof.
      intros Hx Hper g g' E Ez p. rewrite (unfold_region x B per p g Hx), Hper. unfold mbind. rewrite E.
      destruct (exists_last (l := a0 :: l) ltac:(discriminate)) as (l1 & a1 & E1). rewrite E1, rev_app_distr. cbn [rev app]. rewrite <- E1.
      unfold lift. rewrite Ez. reflexivity.
    Qed.

    (** the exact result, for every value of parallel_eval *)
    Theorem exact_region x B g : shp x = [B; N; F] ->
      match expected N lab D per g B with
      | Raises e => exists g', forall p, region_forward K mods per p x g = (Err e, g')
      | Rows n => forall p, exists out, region_forward K mods per p x g = (Ok out, Some n) /\ shp out = [n; O] /\
          forall b o, b < n -> o < O -> get out [b; o] = value K per N lab D F (weights_of m) (fun s i => get x [source B b; s; i]) o
      end.
    Proof.
      intros Hx. pose proof (b_form K _ _ _ _ _ _ _ _ _ _ Hb) as Fm. destruct Fm as (l & t & r & Em & Hll & Hts & Hr).
      pose proof (b_le K _ _ _ _ _ _ _ _ _ _ Hb) as Hle. pose proof (b_lab K _ _ _ _ _ _ _ _ _ _ Hb) as Hlab.
      unfold expected. destruct (Nat.ltb_spec 0 lab) as [Hl|Hl].
      - (* label_site > 0 *)
        destruct (Nat.eqb_spec lab 1) as [E1|E1]; cbn [orb].
        { apply (fails x B _ Hx). rewrite Em. rewrite E1 in Hll. apply err_app. eapply short_fails; eassumption. }
        destruct (region_list_wf K _ _ _ O _ _ Hll E1) as (W1 & S1 & O1 & L1 & L1').
        destruct (Nat.eqb_spec (N - lab) 1) as [E2|E2].
        { apply (fails x B _ Hx). rewrite Em. rewrite E2 in Hr.
          destruct (mods_forward_ok K D F O (l ++ [OutputSite t]) x B N Hx 0 g) as (lq & Eq & _).
          - apply Forall_app. split; [exact W1|constructor; [exact Hts|constructor]].
          - apply Forall_app. split; [exact S1|constructor; [exact Logic.I|constructor]].
          - unfold outs in *. rewrite filter_app, O1. cbn. lia.
          - destruct lab as [|lab']; [lia|]. destruct Hll as (mm & -> & t' & b & -> & _). cbn. discriminate.
          - rewrite app_assoc. eapply err_skip; [exact Eq|]. eapply short_fails; eassumption. }
        assert (HN : N =? 0 = false) by (apply Nat.eqb_neq; lia).
        destruct (negb per && (D =? 0))%bool eqn:E3.
        { apply andb_prop in E3 as [Hper HD]. apply Nat.eqb_eq in HD. apply Bool.negb_true_iff in Hper.
          pose proof (form_good K N O D F lab ub mods ltac:(exists l, t, r; auto) E1 E2) as (G1 & G2 & G3).
          destruct (mods_forward_ok K D F O mods x B N Hx 0 g G1 G2 ltac:(lia)) as (lq & Eq & _ & Mq & Lq & _).
          { pose proof (form_ready K N O D F lab ub mods B g ltac:(exists l, t, r; auto) (or_introl Hl)) as R. exact R. }
          assert (0 < List.length mods) by (rewrite Em, !app_length; cbn; lia).
          destruct lq as [|a0 lq]; [cbn in Lq; lia|]. apply Forall_inv in Mq. destruct Mq as (M0 & o' & T0). rewrite HD in T0.
          eexists. eapply fails_end; [exact Hx|exact Hper| |eapply zero_end; eassumption]. exact Eq. }
        rewrite HN. unfold broadcast. rewrite Nat.eqb_refl. intros p.
        destruct (region_value K _ _ _ _ _ _ p _ _ _ _ x B g Hb E1 E2 (or_introl Hl)) as (out & Eo & So & Go); [|exact Hx|].
        { destruct per; [lia|]. destruct D; [discriminate E3|lia]. }
        exists out. split; [exact Eo|]. split; [exact So|]. intros b o Hbb Ho. rewrite Go by assumption.
        unfold source. destruct (Nat.eqb_spec B 1) as [->|]; [|reflexivity]. replace b with 0 by lia. reflexivity.
      - (* label_site = 0 *)
        assert (E0 : lab = 0) by lia. rewrite E0 in Hll, Hr, Hlab |- *. cbn [region_list] in Hll. subst l. cbn [app] in Em. rewrite Nat.sub_0_r in Hr |- *. cbn [Nat.eqb orb].
        destruct g as [B'|].
        2: { apply (fails x B _ Hx). exists None. rewrite Em. cbn [mods_forward mod_len Nat.eqb mod_forward]. unfold mbind, output_core, ndim. rewrite Hts. cbn [List.length Nat.eqb orb].
             unfold init, ndim. rewrite Hts. reflexivity. }
        destruct (core_alone t O D B' 0 x Hts) as (v & Ev & Hv).
        destruct (Nat.eqb_spec N 1) as [EN|EN].
        { rewrite EN in Hr, Hx. apply (fails x B); [rewrite EN; exact Hx|]. rewrite Em. change (OutputSite t :: r) with ([OutputSite t] ++ r).
          eapply err_skip; [exact Ev|]. eapply short_fails; eassumption. }
        destruct (region_list_wf K _ _ _ O _ _ Hr EN) as (W & Sh & Oo & _ & Ln).
        assert (Pos : per = false -> orb per (negb (D =? 0)) = true -> 0 < D) by (intros -> H; destruct D; [discriminate H|lia]).
        assert (Pos2 : (negb per && (D =? 0))%bool = false -> orb per (negb (D =? 0)) = true) by (destruct per, (D =? 0); intros; reflexivity || assumption || discriminate).
        destruct (Nat.eqb_spec N 0) as [N0|N0].
        + rewrite N0 in Hr. cbn [region_list] in Hr. subst r.
          destruct (negb per && (D =? 0))%bool eqn:E3.
          { apply andb_prop in E3 as [Hper HD]. apply Nat.eqb_eq in HD. apply Bool.negb_true_iff in Hper.
            exists (Some B'). eapply fails_end; [exact Hx|exact Hper|rewrite Em; exact Ev|]. rewrite HD in Hv. eapply zero_end; [constructor; exact Hv|unfold is_mid; cbn; auto]. }
          rewrite N0 in Hx. intros p. rewrite Em.
          assert (Ef : forall px o, factors N 0 D F (weights_of m) px o = [(D, fun l r => get t [o; l; r])]).
          { intros px o. rewrite <- Hlab, <- (form_factors K N O D F ub m); [|lia|exists [], t, []; rewrite Hlab, N0; repeat split; assumption].
            rewrite Em. rewrite (sem_cons K F t [] px o D O Hts eq_refl). reflexivity. }
          destruct per.
          * destruct (alone_ring K D F O t p x B B' Hts Hx) as (out & Eo & So & Go). exists out. split; [exact Eo|]. split; [exact So|].
            intros b o Hbb Ho. rewrite Go by assumption. unfold value, ring_value. rewrite Ef. apply bsum_ext. intros k Hk. symmetry. apply (chain_single K). exact Hk.
          * destruct (alone_open K D F O t p x B B' Hts (Pos eq_refl (Pos2 eq_refl)) Hx) as (out & Eo & So & Go). exists out. split; [exact Eo|]. split; [exact So|].
            intros b o Hbb Ho. rewrite Go by assumption. unfold value, train_value. rewrite Ef. symmetry. apply (chain_single K). exact (Pos eq_refl (Pos2 eq_refl)).
        + assert (Hne : r <> []) by (intros ->; specialize (Ln ltac:(lia)); discriminate Ln).
          assert (Hx' : shp x = [B; region_len K (OutputSite t :: r); F]).
          { rewrite <- Em, (form_len K N O D F 0 ub mods); [exact Hx|lia|]. exists [], t, r. rewrite Nat.sub_0_r. repeat split; assumption. }
          assert (Ef : forall px o, factors N 0 D F (weights_of m) px o = sem_all K F (OutputSite t :: r) 0 px o).
          { intros px o. rewrite <- Em, (form_factors K N O D F ub m); [rewrite Hlab; reflexivity|lia|exists [], t, r; rewrite Hlab, Nat.sub_0_r; repeat split; assumption]. }
          destruct (negb per && (D =? 0))%bool eqn:E3.
          { apply andb_prop in E3 as [Hper HD]. apply Nat.eqb_eq in HD. apply Bool.negb_true_iff in Hper.
            destruct (stale_mods K D F O t r x B _ B' Hts Hne W Sh Oo Hx') as (v' & l & El & Hv' & _).
            exists (Some B). eapply fails_end; [exact Hx|exact Hper|rewrite Em; exact El|]. rewrite HD in Hv'. eapply zero_end; [constructor; exact Hv'|unfold is_mid; cbn; auto]. }
          rewrite broadcast_bdim. rewrite Em. destruct per.
          * pose proof (fun p => stale_ring K D F O t r p x B B' Hts Hne W Sh Oo Hx') as SR. destruct (bdim B' B) as [Bc|]; [|exists (Some B); exact SR].
            intros p. destruct (SR p) as (out & Eo & So & Go). exists out. split; [exact Eo|]. split; [exact So|].
            intros b o Hbb Ho. rewrite Go by assumption. unfold value, ring_value. rewrite Ef. reflexivity.
          * pose proof (fun p => stale_open K D F O t r p x B B' Hts Hne W Sh Oo (Pos eq_refl (Pos2 eq_refl)) Hx') as SR. destruct (bdim B' B) as [Bc|]; [|exists (Some B); exact SR].
            intros p. destruct (SR p) as (out & Eo & So & Go). exists out. split; [exact Eo|]. split; [exact So|].
            intros b o Hbb Ho. rewrite Go by assumption. unfold value, train_value. rewrite Ef. reflexivity.
    Qed.
  End Model.
End P.

Section Props.
  Variable K : cring.
  Add Ring Kr : (rth K).
  Implicit Types (m : mps K) (x : tensor K).

  Lemma exact_forward N O D F per par label path std ub rnd m0 m x B g :
    mps_init K N O D F per par label path std ub rnd = Ok m0 -> trained m0 m -> no_path path -> shp x = [B; N; F] ->
    match expected N (m_label m) D per g B with
    | Raises e => fst (mps_forward K m x g) = Err e
    | Rows n => exists out, mps_forward K m x g = (Ok out, Some n) /\ shp out = [n; O] /\
        forall b o, b < n -> o < O -> get out [b; o] = value K per N (m_label m) D F (weights_of m) (fun s i => get x [source B b; s; i]) o
    end.
  Proof.
    intros Hi Ht Hp Hx. pose proof (model_built K _ _ _ _ _ _ _ _ _ _ _ _ _ Hi Ht) as Hb.
    rewrite (model_label K _ _ _ _ _ _ _ _ _ _ _ _ _ Hi Ht).
    pose proof (exact_region K _ _ _ _ _ _ _ _ _ _ Hb x B g Hx) as E.
    assert (EQ : mps_forward K m x g = region_forward K (m_modules m) per par x g).
    { rewrite (mps_forward_eq K m x g x x).
      - rewrite (b_per K _ _ _ _ _ _ _ _ _ _ Hb), (b_par K _ _ _ _ _ _ _ _ _ _ Hb). reflexivity.
      - apply route_off. rewrite (b_path K _ _ _ _ _ _ _ _ _ _ Hb). apply no_path_off. exact Hp.
      - apply mps_embed_pre with (B := B). rewrite (b_in K _ _ _ _ _ _ _ _ _ _ Hb), (b_feat K _ _ _ _ _ _ _ _ _ _ Hb). exact Hx. }
    rewrite EQ. destruct (expected N (label_site N label) D per g B) as [n|e].
    - exact (E par).
    - destruct E as (g' & E). rewrite E. reflexivity.
  Qed.
  (** ** C30, C31: whenever forward returns, every row of the result is the contraction of its
      input row; the result has the rows of the input, unless label_site = 0 and the last call had
      another batch size (then the sizes are broadcast, C33) *)
  Theorem C30_open_boundary N O D F par label path std ub rnd m0 m x B g out g' :
    mps_init K N O D F false par label path std ub rnd = Ok m0 -> trained m0 m -> no_path path -> shp x = [B; N; F] ->
    mps_forward K m x g = (Ok out, g') ->
    exists n, shp out = [n; O] /\ g' = Some n /\ (0 < m_label m \/ g = Some B -> n = B) /\
      forall b o, b < n -> o < O ->
        get out [b; o] = train_value N (m_label m) D F (weights_of m) (fun s i => get x [source B b; s; i]) o.
  Proof.
    intros Hi Ht Hp Hx Ho. pose proof (exact_forward _ _ _ _ _ _ _ _ _ _ _ _ _ x B g Hi Ht Hp Hx) as E.
    destruct (expected N (m_label m) D false g B) as [n|e] eqn:Ex; [|rewrite Ho in E; discriminate E].
    destruct E as (out' & E & Hs & Gv). rewrite Ho in E. injection E as <- ->.
    exists n. split; [exact Hs|]. split; [reflexivity|]. split; [|exact Gv].
    intros Hg. unfold expected in Ex. assert (Q : (if 0 <? m_label m then Some B else g) = Some B) by (destruct (Nat.ltb_spec 0 (m_label m)), Hg; (reflexivity || lia || assumption)).
    rewrite Q in Ex. destruct ((m_label m =? 1) || (N - m_label m =? 1))%bool; [discriminate|]. destruct (negb false && (D =? 0))%bool; [discriminate|].
    destruct (N =? 0); [congruence|]. unfold broadcast in Ex. rewrite Nat.eqb_refl in Ex. congruence.
  Qed.
  Theorem C31_periodic_boundary N O D F par label path std ub rnd m0 m x B g out g' :
    mps_init K N O D F true par label path std ub rnd = Ok m0 -> trained m0 m -> no_path path -> shp x = [B; N; F] ->
    mps_forward K m x g = (Ok out, g') ->
    exists n, shp out = [n; O] /\ g' = Some n /\ (0 < m_label m \/ g = Some B -> n = B) /\
      forall b o, b < n -> o < O ->
        get out [b; o] = ring_value N (m_label m) D F (weights_of m) (fun s i => get x [source B b; s; i]) o.
  Proof.
    intros Hi Ht Hp Hx Ho. pose proof (exact_forward _ _ _ _ _ _ _ _ _ _ _ _ _ x B g Hi Ht Hp Hx) as E.
    destruct (expected N (m_label m) D true g B) as [n|e] eqn:Ex; [|rewrite Ho in E; discriminate E].
    destruct E as (out' & E & Hs & Gv). rewrite Ho in E. injection E as <- ->.
    exists n. split; [exact Hs|]. split; [reflexivity|]. split; [|exact Gv].
    intros Hg. unfold expected in Ex. assert (Q : (if 0 <? m_label m then Some B else g) = Some B) by (destruct (Nat.ltb_spec 0 (m_label m)), Hg; (reflexivity || lia || assumption)).
    rewrite Q in Ex. destruct ((m_label m =? 1) || (N - m_label m =? 1))%bool; [discriminate|]. cbn [negb andb] in Ex.
    destruct (N =? 0); [congruence|]. unfold broadcast in Ex. rewrite Nat.eqb_refl in Ex. congruence.
  Qed.

  (** ** C32: for every model, every input (raw or embedded, routed by a path or not, well-formed
      or not) and every history of calls *)
  Theorem C32_parallel_eval N O D F per par label path std ub rnd m0 m x g :
    mps_init K N O D F per par label path std ub rnd = Ok m0 -> trained m0 m ->
    (exists e g', mps_forward K (with_parallel K true m) x g = (Err e, g') /\ mps_forward K (with_parallel K false m) x g = (Err e, g')) \/
    (exists out out' n, mps_forward K (with_parallel K true m) x g = (Ok out, Some n) /\ mps_forward K (with_parallel K false m) x g = (Ok out', Some n) /\
       shp out = [n; O] /\ shp out' = [n; O] /\ forall b o, b < n -> o < O -> get out [b; o] = get out' [b; o]).
  Proof.
    intros Hi Ht. pose proof (model_built K _ _ _ _ _ _ _ _ _ _ _ _ _ Hi Ht) as Hb.
    unfold mps_forward, mbind, lift. cbn [with_parallel m_path m_modules m_periodic m_parallel].
    destruct (route K (m_path m) x) as [y|e]; [|left; exists e, g; split; reflexivity].
    change (mps_embed K (with_parallel K true m) y) with (mps_embed K m y). change (mps_embed K (with_parallel K false m) y) with (mps_embed K m y).
    destruct (mps_embed K m y) as [e|e] eqn:Ee; [|left; exists e, g; split; reflexivity].
    destruct (embed_shape K m y e Ee) as (B & He). rewrite (b_in K _ _ _ _ _ _ _ _ _ _ Hb), (b_feat K _ _ _ _ _ _ _ _ _ _ Hb) in He.
    rewrite (b_per K _ _ _ _ _ _ _ _ _ _ Hb).
    pose proof (exact_region K _ _ _ _ _ _ _ _ _ _ Hb e B g He) as E.
    destruct (expected N (label_site N label) D per g B) as [n|ex].
    - right. destruct (E true) as (o1 & E1 & S1 & G1). destruct (E false) as (o2 & E2 & S2 & G2). exists o1, o2, n.
      repeat (split; [assumption|]). intros b o Hbb Ho. rewrite G1, G2 by assumption. reflexivity.
    - left. destruct E as (g' & E). exists ex, g'. split; apply E.
  Qed.

  (** ** C33, C34: the exact outcome of every call, in every history *)
  Theorem C33_exact_outcome N O D F per par label path std ub rnd m0 m x B g :
    mps_init K N O D F per par label path std ub rnd = Ok m0 -> trained m0 m -> no_path path -> shp x = [B; N; F] ->
    match expected N (m_label m) D per g B with
    | Raises e => fst (mps_forward K m x g) = Err e
    | Rows n => exists out, mps_forward K m x g = (Ok out, Some n) /\ shp out = [n; O] /\
        forall b o, b < n -> o < O -> get out [b; o] =
          (if per then ring_value else train_value) N (m_label m) D F (weights_of m) (fun s i => get x [source B b; s; i]) o
    end.
  Proof.
    intros Hi Ht Hp Hx. pose proof (exact_forward _ _ _ _ _ _ _ _ _ _ _ _ _ x B g Hi Ht Hp Hx) as E.
    destruct (expected N (m_label m) D per g B); [|exact E]. destruct E as (out & Eo & So & Go). exists out. split; [exact Eo|]. split; [exact So|].
    intros b o Hb Ho. rewrite Go by assumption. unfold value. destruct per; reflexivity.
  Qed.
  (** ... so a model works exactly when no region has one site, the bond dimension of an open
      chain is positive, and the output core, if it stands first, has been given a batch size by an
      earlier call that can be broadcast with the one of the input *)
  Theorem C34_works_iff N O D F per par label path std ub rnd m0 m x B g :
    mps_init K N O D F per par label path std ub rnd = Ok m0 -> trained m0 m -> no_path path -> shp x = [B; N; F] ->
    (exists out, fst (mps_forward K m x g) = Ok out) <->
      (m_label m <> 1 /\ N - m_label m <> 1 /\ (per = false -> 0 < D) /\
       (m_label m = 0 -> exists B', g = Some B' /\ (N = 0 \/ B' = B \/ B' = 1 \/ B = 1))).
  Proof.
    intros Hi Ht Hp Hx. pose proof (exact_forward _ _ _ _ _ _ _ _ _ _ _ _ _ x B g Hi Ht Hp Hx) as E.
    assert (Q : (exists out, fst (mps_forward K m x g) = Ok out) <-> exists n, expected N (m_label m) D per g B = Rows n).
    { destruct (expected N (m_label m) D per g B) as [n|e].
      - destruct E as (out & E & _). split; intros _; [exists n; reflexivity|exists out; rewrite E; reflexivity].
      - split; [intros (out & Eo); congruence|intros (n & En); discriminate En]. }
    rewrite Q. clear E Q. unfold expected, broadcast.
    assert (HDper : (negb per && (D =? 0))%bool = false <-> (per = false -> 0 < D)) by (destruct per, (Nat.eqb_spec D 0); cbn; split; intros; try reflexivity; try discriminate; try lia; exfalso; match goal with H : _ -> 0 < _ |- _ => specialize (H eq_refl) end; lia).
    destruct (Nat.ltb_spec 0 (m_label m)) as [Hl|Hl].
    - destruct (Nat.eqb_spec (m_label m) 1) as [E1|E1], (Nat.eqb_spec (N - m_label m) 1) as [E2|E2]; cbn [orb]; try (split; [intros (n & F0); discriminate F0|tauto]).
      destruct (negb per && (D =? 0))%bool eqn:E3.
      + split; [intros (n & F0); discriminate F0|]. intros (_ & _ & HD & _). apply HDper in HD. discriminate HD.
      + split; [|intros _; destruct (N =? 0); [eauto|rewrite Nat.eqb_refl; eauto]]. intros _. split; [exact E1|]. split; [exact E2|]. split; [apply HDper; reflexivity|lia].
    - assert (m_label m = 0) as -> by lia. rewrite Nat.sub_0_r. cbn [Nat.eqb orb].
      destruct g as [B'|]; [|split; [intros (n & F0); discriminate F0|intros (_ & _ & _ & HB); destruct (HB eq_refl) as (? & F0 & _); discriminate F0]].
      destruct (Nat.eqb_spec N 1) as [E2|E2]; [split; [intros (n & F0); discriminate F0|tauto]|].
      destruct (negb per && (D =? 0))%bool eqn:E3.
      { split; [intros (n & F0); discriminate F0|]. intros (_ & _ & HD & _). apply HDper in HD. discriminate HD. }
      split.
      + intros HR. split; [lia|]. split; [exact E2|]. split; [apply HDper; reflexivity|]. intros _. exists B'. split; [reflexivity|].
        destruct (Nat.eqb_spec N 0); [auto|]. destruct (Nat.eqb_spec B' B); [auto|]. destruct (Nat.eqb_spec B' 1); [auto|]. destruct (Nat.eqb_spec B 1); [auto|].
        destruct HR as (nn & F0). discriminate F0.
      + intros (_ & _ & _ & HB). destruct (HB eq_refl) as (B0 & E0 & HB0). injection E0 as <-.
        destruct (Nat.eqb_spec N 0); [eauto|]. destruct (Nat.eqb_spec B' B); [eauto|]. destruct (Nat.eqb_spec B' 1); [eauto|]. destruct (Nat.eqb_spec B 1); [eauto|]. lia.
  Qed.

  (** ** C37, in every history *)
  Lemma source_lt N lab D per g B n b : expected N lab D per g B = Rows n -> 0 < N -> b < n -> source B b < B.
  Proof.
    unfold expected, broadcast, source. intros E HN Hb. destruct (if 0 <? lab then Some B else g) as [B'|]; [|discriminate].
    destruct ((lab =? 1) || (N - lab =? 1))%bool; [discriminate|]. destruct (negb per && (D =? 0))%bool; [discriminate|].
    destruct (Nat.eqb_spec N 0); [lia|].
    destruct (Nat.eqb_spec B' B), (Nat.eqb_spec B' 1), (Nat.eqb_spec B 1); try discriminate E; injection E as E; lia.
  Qed.
  Theorem C37_affine N O D F per par label path std ub rnd m0 m x0 x1 x2 s a b B g y0 g' :
    mps_init K N O D F per par label path std ub rnd = Ok m0 -> trained m0 m -> no_path path ->
    shp x0 = [B; N; F] -> shp x1 = [B; N; F] -> shp x2 = [B; N; F] -> s < N ->
    mixes K B N F s a b x0 x1 x2 -> ub = false \/ sadd a b = s1 ->
    mps_forward K m x0 g = (Ok y0, g') ->
    exists y1 y2 n, mps_forward K m x1 g = (Ok y1, g') /\ mps_forward K m x2 g = (Ok y2, g') /\
      shp y0 = [n; O] /\ shp y1 = [n; O] /\ shp y2 = [n; O] /\
      forall c o, c < n -> o < O -> get y2 [c; o] = sadd (smul a (get y0 [c; o])) (smul b (get y1 [c; o])).
  Proof.
    intros Hi Ht Hp H0 H1 H2 Hs Hm Hab Hf. pose proof (model_label K _ _ _ _ _ _ _ _ _ _ _ _ _ Hi Ht) as El.
    pose proof (model_built K _ _ _ _ _ _ _ _ _ _ _ _ _ Hi Ht) as Hb.
    pose proof (exact_forward _ _ _ _ _ _ _ _ _ _ _ _ _ x0 B g Hi Ht Hp H0) as Q0.
    pose proof (exact_forward _ _ _ _ _ _ _ _ _ _ _ _ _ x1 B g Hi Ht Hp H1) as Q1.
    pose proof (exact_forward _ _ _ _ _ _ _ _ _ _ _ _ _ x2 B g Hi Ht Hp H2) as Q2.
    destruct (expected N (m_label m) D per g B) as [n|e] eqn:Ex; [|rewrite Hf in Q0; discriminate Q0].
    destruct Q0 as (z0 & E0 & S0 & G0). rewrite Hf in E0. injection E0 as <- ->.
    destruct Q1 as (y1 & E1 & S1 & G1). destruct Q2 as (y2 & E2 & S2 & G2).
    exists y1, y2, n. repeat (split; [assumption|]). intros c o Hcc Ho. rewrite G0, G1, G2 by assumption.
    assert (Hcs : source B c < B) by (eapply source_lt; [exact Ex|lia|exact Hcc]). rewrite El in *.
    apply (value_affine K) with (s := s).
    - apply (b_le K _ _ _ _ _ _ _ _ _ _ Hb).
    - exact Hs.
    - intros s' i Hs' Hne Hi'. specialize (Hm _ s' i Hcs Hs' Hi'). apply Nat.eqb_neq in Hne. rewrite Hne in Hm. apply Hm.
    - intros s' i Hs' Hne Hi'. specialize (Hm _ s' i Hcs Hs' Hi'). apply Nat.eqb_neq in Hne. rewrite Hne in Hm. apply Hm.
    - intros i Hi'. specialize (Hm _ s i Hcs Hs Hi'). rewrite Nat.eqb_refl in Hm. exact Hm.
    - intros i j. destruct Hab as [Hu|Hab]; [|rewrite Hab; ring]. subst ub. destruct Hb.
      rewrite (form_no_bias K N O D F m); [ring|rewrite b_lab; exact b_form|rewrite b_lab; exact b_le|exact Hs].
  Qed.
End Props.

(** ** the hypotheses are met: label_site = 0 after a call with batch size 3: an input with one row
    gives three equal rows, each the contraction of that row *)
Definition zero_mps : mps Z_cring := get_mps (mps_init Z_cring 2 2 2 2 false false (Some 0%Z) PNone (1%Z : Z_cring) true tick).
Example ex_zero : mps_init Z_cring 2 2 2 2 false false (Some 0%Z) PNone (1%Z : Z_cring) true tick = Ok zero_mps /\ trained zero_mps zero_mps /\ m_label zero_mps = 0.
Proof.
  destruct (C34_constructor Z_cring 2 2 2 2 false false (Some 0%Z) PNone (1%Z : Z_cring) true tick) as (m & Em & Ht & El); [lia|left; left; reflexivity|].
  unfold zero_mps. rewrite Em. cbn [get_mps]. auto.
Qed.
Example ex_outcomes : expected 2 0 2 false (Some 3) 1 = Rows 3 /\ expected 2 0 2 false (Some 3) 2 = Raises RuntimeError /\ expected 2 0 2 false None 2 = Raises RuntimeError /\
  expected 2 0 2 false (Some 1) 2 = Rows 2 /\ expected 2 1 2 false (Some 2) 2 = Raises AssertionError /\ expected 4 2 2 false None 2 = Rows 2 /\ expected 4 2 0 false None 2 = Raises IndexError.
Proof. repeat split; reflexivity. Qed.
Example ex_stale : let spec o := train_value 2 0 2 2 (weights_of zero_mps) (fun s i => get (pix 1 2 2) [0; s; i]) o in
  match fst (mps_forward Z_cring zero_mps (pix 1 2 2) (Some 3)) with
  | Ok out => shp out = [3; 2] /\ map (fun i => get out i) [[0; 0]; [0; 1]; [1; 0]; [1; 1]; [2; 0]; [2; 1]] = [spec 0; spec 1; spec 0; spec 1; spec 0; spec 1] /\ spec 0 <> spec 1
  | Err _ => False
  end.
Proof. vm_compute. repeat split; discriminate. Qed.
Print Assumptions C30_open_boundary.
Print Assumptions C31_periodic_boundary.
Print Assumptions C32_parallel_eval.
Print Assumptions C33_exact_outcome.
Print Assumptions C34_works_iff.
Print Assumptions C37_affine.
