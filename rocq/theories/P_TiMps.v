(** * P_TiMps: properties C38-C40 (torchmps/torchmps.py: TI_MPS), and C33, C36 for TI_MPS.
    [ti_trained m0 m]: the parameters of the constructed model m0 have got any values of the
    same shapes (a fixed bias keeps its value); [ti_value]: the contraction (TmSpec.v). *)
From Verif Require Import Base Scalars Tensor Spec LinAlg EinsumProofs Contractables ContrSpec ContrProofs ContrReduce Utils UtilsSpec UtilsProofs TorchMps TmSpec TmProofs TmFinal P_Mps P_Mps2 P_Mps3.

Section P.
  Variable K : cring.
  Add Ring Kr : (rth K).
  Notation T := (tensor K).
  Implicit Types x : T.

  (** *** the constructor *)
  Record ti_built (O D F : nat) (par ub fb : bool) (m : ti_mps K) : Prop := {
    tb_out : t_output m = O; tb_bond : t_bond m = D; tb_feat : t_feature m = F; tb_par : t_parallel m = par;
    tb_ub : t_use_bias m = ub; tb_fb : t_fixed_bias m = fb;
    tb_core : shp (t_core m) = [D; D; F]; tb_vec : shp (t_vec m) = [D]; tb_mat : shp (t_mat m) = [D; O];
    tb_bias : if ub then exists b, t_bias m = Some b /\ shp b = [D; D] /\
                 (fb = true -> forall i j, get b [i; j] = if i =? j then s1 else s0)
              else t_bias m = None }.
  Lemma ti_init_built O D F par fe std ub fb over rnd m0 m :
    ti_init K O D F par fe std ub fb over rnd = Ok m0 -> ti_trained m0 m -> ti_built O D F par ub fb m.
  Proof.
    unfold ti_init. intros E.
    destruct (init_tensor K s0 [D; D; F] "lri" _ _) as [core|] eqn:Ec; cbn [rbind] in E; [|discriminate].
    apply init_tensor_shape in Ec; [|reflexivity].
    set (rm := if fe && (D <? O) then _ else _) in E.
    destruct rm as [mat|] eqn:Em; cbn [rbind] in E; [|discriminate].
    assert (Hm : shp mat = [D; O]).
    { unfold rm in Em. destruct (fe && (D <? O)); [discriminate|]. destruct fe; [injection Em as <-; reflexivity|].
      destruct (tzip_same (sadd (s := K)) (eye2 K D O) (tmap (over D) (mkT [D; O] (rnd 1))) [D; O] eq_refl eq_refl) as (v & Ev & Hv & _).
      rewrite Ev in Em. injection Em as <-. exact Hv. }
    set (rb := if ub then _ else _) in E.
    destruct rb as [bias|] eqn:Eb; cbn [rbind] in E; [|discriminate]. injection E as <-.
    assert (Hb : if ub then exists b, bias = Some b /\ shp b = [D; D] /\ (fb = true -> forall i j, get b [i; j] = if i =? j then s1 else s0) else bias = None).
    { unfold rb in Eb. destruct ub; [|injection Eb as <-; reflexivity]. destruct fb.
      - injection Eb as <-. eexists. split; [reflexivity|]. split; [reflexivity|]. intros _ i j. reflexivity.
      - destruct (init_tensor K s0 [D; D] "lr" _ _) as [b|] eqn:Ebb; cbn [rbind] in Eb; [|discriminate]. injection Eb as <-.
        apply init_tensor_shape in Ebb; [|reflexivity]. exists b. split; [reflexivity|]. split; [exact Ebb|]. discriminate. }
    intros (H1 & H2 & H3 & H4 & ->). cbn in *. unfold same_shape in *. constructor; cbn; try reflexivity; try congruence.
    - rewrite <- H2. reflexivity.
    - destruct ub.
      + destruct Hb as (b & -> & Hs & Hf). destruct (t_bias m) as [b'|]; [|contradiction]. destruct H4 as [H4 H5]. exists b'. split; [reflexivity|].
        split; [congruence|]. intros Hfb. rewrite <- (H5 Hfb). apply Hf. exact Hfb.
      + subst bias. destruct (t_bias m); [contradiction|reflexivity].
  Qed.

  (** *** the forward pass, from the formatted input on *)
  Lemma ti_format_pre m x B n F : t_feature m = F -> shp x = [B; n; F] -> ti_format K m (TTensor x) = Ok x.
  Proof. intros Hf Hx. unfold ti_format, ndim, size. rewrite Hx, Hf. cbn [List.length Nat.eqb rbind assert_ nth]. unfold ndim, size. rewrite Hx. cbn [List.length Nat.eqb rbind assert_ nth]. rewrite Nat.eqb_refl. reflexivity. Qed.
  Lemma output_mat_short v B D O : shp v = [D; O] ->
    exists w, output_mat K v false (Some B) = (Ok (mkA KOutputMat w "blo"), Some B) /\ shp w = [B; D; O] /\
      forall b i o, b < B -> i < D -> o < O -> get w [b; i; o] = get v [i; o].
  Proof.
    intros Hv. destruct (expand_batch K v B 1 [D; O] Hv ltac:(lia)) as (w & Ew & Hw & Gw). exists w. split; [|split; [exact Hw|]].
    - unfold output_mat, ndim. rewrite Hv. cbn [List.length Nat.eqb orb].
      apply (init_short K _ v _ B [D; O]); [exact Hv|discriminate|reflexivity|exact Ew|reflexivity|reflexivity].
    - intros b i o Hb Hi Ho. apply Gw; [exact Hb|repeat constructor; assumption].
  Qed.
  Definition after_format (m : ti_mps K) (x : T) : M T :=
    let batch_size := size 0 x in
    let seq_len := size 1 x in
    let! core := lift (expand (t_core m) [seq_len; t_bond m; t_bond m; t_feature m]) in
    let! region := lift (input_region K core (t_use_bias m) (t_bias m)) in
    let! r := mod_forward K region x in
    let! v := edge_vec K (t_vec m) true in
    let! o := output_mat K (t_mat m) false in
    let! c := lift (contractable_list K (map Atom [v; r; o])) in
    let! z := reduce K (t_parallel m) c in
    match z with
    | Atom a =>
        let! _ := lift (assert_ (String.eqb (a_bond a) "bo")) in
        let! _ := lift (assert_ (size 0 (a_ten a) =? batch_size)) in
        let! _ := lift (assert_ (size 1 (a_ten a) =? t_output m)) in
        ret (a_ten a)
    | _ => raise AttributeError
    end.
  Lemma ti_forward_eq m inp g : ti_forward K m inp g = match ti_format K m inp with Ok x => after_format m x g | Err e => (Err e, g) end.
  Proof. unfold ti_forward, mbind, lift. destruct (ti_format K m inp); reflexivity. Qed.

  (** the region built on the fly *)
  Lemma ti_region O D F par ub fb m n : ti_built O D F par ub fb m ->
    exists core b, expand (t_core m) [n; t_bond m; t_bond m; t_feature m] = Ok core /\ shp core = [n; D; D; F] /\
      (forall s l r i, s < n -> l < D -> r < D -> i < F -> get core [s; l; r; i] = get (t_core m) [l; r; i]) /\
      input_region K core ub (t_bias m) = Ok (InputRegion core ub b) /\ bias_ok K ub b n D /\
      forall i j, mod_bias (InputRegion core ub b) i j = ti_bias_mat m i j.
  Proof.
    intros H. destruct H. rewrite tb_bond0, tb_feat0.
    assert (exists core, expand (t_core m) [n; D; D; F] = Ok core /\ shp core = [n; D; D; F] /\
      forall s l r i, s < n -> l < D -> r < D -> i < F -> get core [s; l; r; i] = get (t_core m) [l; r; i]) as (core & Ec & Hc & Gc).
    { unfold expand. rewrite tb_core0. cbn [rev app exp_ok_rev]. rewrite !Nat.eqb_refl. cbn [orb andb]. eexists. split; [reflexivity|]. split; [reflexivity|].
      intros s l r i Hs Hl Hr Hi. cbn [get]. unfold bproj, lastn. cbn [List.length Nat.sub skipn map2]. rewrite !bidx_valid by assumption. reflexivity. }
    assert (E1 : forall b, input_region K core ub b = if ub then
      let bb := match b with None => unsq_front 1 (eye2 K D D) | Some b => b end in
      let* _ := assert_ ((ndim bb =? 2) || (ndim bb =? 3)) in Ok (InputRegion core true (Some (if ndim bb =? 2 then unsq_front 1 bb else bb)))
      else Ok (InputRegion core false b)).
    { intros b. unfold input_region, ndim at 1, size. rewrite Hc. cbn [List.length Nat.eqb nth assert_ rbind]. rewrite Nat.eqb_refl. cbn [assert_ rbind]. destruct ub; reflexivity. }
    exists core. destruct ub.
    - destruct tb_bias0 as (b & Hb & Hs & _). exists (Some (unsq_front 1 b)). split; [exact Ec|]. split; [exact Hc|]. split; [exact Gc|].
      rewrite E1, Hb. cbv zeta. unfold ndim. rewrite Hs. cbn [List.length Nat.eqb orb assert_ rbind]. split; [reflexivity|]. split.
      + intros _. eexists. split; [reflexivity|]. unfold unsq_front. cbn [shp repeat app]. rewrite Hs. reflexivity.
      + intros i j. unfold ti_bias_mat. rewrite tb_ub0, Hb. reflexivity.
    - exists (t_bias m). split; [exact Ec|]. split; [exact Hc|]. split; [exact Gc|]. rewrite E1. split; [reflexivity|]. split; [intros; discriminate|].
      intros i j. unfold ti_bias_mat. rewrite tb_ub0. reflexivity.
  Qed.

  Lemma after_format_value O D F par ub fb m x B n g : ti_built O D F par ub fb m -> shp x = [B; n; F] -> 1 <= n ->
    exists out, after_format m x g = (Ok out, Some B) /\ shp out = [B; O] /\
      forall b o, b < B -> o < O -> get out [b; o] = ti_value m n (fun s i => get x [b; s; i]) o.
  Proof.
    intros H Hx Hn. destruct (ti_region _ _ _ _ _ _ _ n H) as (core & bias & Ec & Hc & Gc & Er & Hbias & Gb). destruct H.
    set (reg := InputRegion core ub bias) in *.
    assert (Wf : wf_mod K D F O reg) by (exists n; split; [lia|split; assumption]).
    assert (In : in_ok K F reg B x) by (cbn; unfold size; rewrite Hc; exact Hx).
    destruct (mod_forward_ok K D F O reg x B g Wf In ltac:(discriminate)) as (a & Ea & Ta & Ma & Va). cbn [is_output osize] in Ta, Va.
    destruct (edge_vec_short K (t_vec m) B D true tb_vec0) as (v & Ev & Hv & Gv).
    destruct (output_mat_short (t_mat m) B D O tb_mat0) as (w & Ew & Hw & Gw).
    set (Lv := mkA KEdgeVec v "br") in *. set (Rw := mkA KOutputMat w "blo") in *.
    destruct (reduce_open K par B (Some O) Lv [a] Rw) with (g := Some B) as (z & Ez & Tz & Bz & Mz).
    { reflexivity. }
    { constructor; [exact Ma|constructor]. }
    { right; left; reflexivity. }
    { eapply CT_plain; [constructor; exact Hv|]. eapply CT_plain; [exact Ta|]. eapply CT_out; [constructor; exact Hw|constructor]. }
    assert (Sz : shp (a_ten z) = [B; O]) by (inversion Tz; subst; cbn [a_bond] in Bz; try discriminate Bz; assumption).
    exists (a_ten z). split; [|split; [exact Sz|]].
    - unfold after_format, mbind, lift, size. rewrite Hx. cbn [nth]. rewrite Ec, tb_ub0, Er. fold reg. rewrite Ea, Ev. fold Lv. rewrite Ew. fold Rw.
      rewrite contractable_atoms, tb_par0. cbn [app] in Ez. rewrite Ez. rewrite Bz. cbn [String.eqb Ascii.eqb Bool.eqb andb assert_].
      rewrite Sz, tb_out0. cbn [nth]. rewrite !Nat.eqb_refl. reflexivity.
    - intros b o Hb Ho. pose proof (Mz b o 0 0 Hb Ho ltac:(lia) ltac:(lia)) as E.
      unfold meaning in E. rewrite Bz in E. cbn [String.eqb Ascii.eqb Bool.eqb andb] in E. rewrite E. cbn [app].
      rewrite (product_cons K). change (ncols Lv) with (nth 1 (shp v) 0). rewrite Hv. cbn [nth]. unfold ti_value, sandwich. rewrite tb_bond0. unfold mmul.
      apply bsum_ext. intros i Hi. change (meaning Lv b o 0 i) with (get v [b; i]). rewrite Gv by assumption.
      rewrite bsum_mul_l. f_equal. rewrite (product_cons K), (typed_ncols K _ _ _ _ _ Ta). unfold mmul. apply bsum_ext. intros j Hj.
      rewrite (product_one K) by (cbn; lia). change (meaning Rw b o j 0) with (get w [b; j; o]). rewrite Gw by assumption. f_equal.
      rewrite (meaning_none K _ _ _ _ b o Ta), Va by (assumption || (cbn; lia)). cbn [sem reg pixels]. unfold size. rewrite Hc. cbn [nth].
      apply (chain_eq_chain K D); [|exact Hi]. fold (rcl K D (fun s => site_matrix (t_feature m) (fun l r i => get (t_core m) [l; r; i]) (ti_bias_mat m) (fun k => get x [b; s; k])) 0 n).
      apply rcl_ext. intros s p q Hs Hp Hq. rewrite Nat.max_id in Hp. rewrite tb_feat0. unfold site_matrix. rewrite Gb. f_equal.
      apply bsum_ext. intros k Hk. rewrite Gc by (assumption || lia). reflexivity.
  Qed.

  (** ** C38 *)
  Theorem C38_ti_forward O D F par fe std ub fb over rnd m0 m x B n g :
    ti_init K O D F par fe std ub fb over rnd = Ok m0 -> ti_trained m0 m -> shp x = [B; n; F] -> 1 <= n ->
    exists out, ti_forward K m (TTensor x) g = (Ok out, Some B) /\ shp out = [B; O] /\
      forall b o, b < B -> o < O -> get out [b; o] = ti_value m n (fun s i => get x [b; s; i]) o.
  Proof.
    intros Hi Ht Hx Hn. pose proof (ti_init_built _ _ _ _ _ _ _ _ _ _ _ _ Hi Ht) as Hb.
    rewrite ti_forward_eq, (ti_format_pre m x B n F (tb_feat _ _ _ _ _ _ _ Hb) Hx). eapply after_format_value; eassumption.
  Qed.
  (** the constructor: only fixed ends with fewer bonds than outputs are rejected; at the start
      the initial vector is all ones and a fixed bias is the identity *)
  Theorem C38_constructor O D F par fe std ub fb over rnd :
    (fe = true -> O <= D) -> exists m0, ti_init K O D F par fe std ub fb over rnd = Ok m0 /\ ti_trained m0 m0 /\
      shp (t_core m0) = [D; D; F] /\ shp (t_vec m0) = [D] /\ shp (t_mat m0) = [D; O] /\
      (forall l r i, get (t_core m0) [l; r; i] = smul std (rnd 0 [l; r; i])) /\
      (forall l, get (t_vec m0) [l] = s1) /\
      (forall r o, r < D -> o < O -> get (t_mat m0) [r; o] = if fe then delta r o else sadd (delta r o) (over D (rnd 1 [r; o]))) /\
      (if ub then exists b, t_bias m0 = Some b /\ shp b = [D; D] /\ forall l r, l < D -> r < D -> get b [l; r] = if fb then delta l r else sadd (delta l r) (smul std (rnd 2 [l; r]))
       else t_bias m0 = None).
  Proof.
    intros Hfe. unfold ti_init.
    assert (Ec : init_tensor K s0 [D; D; F] "lri" (ITuple "random_zero" std []) (mkT [D; D; F] (rnd 0)) = Ok (tmap (smul std) (mkT [D; D; F] (rnd 0)))) by reflexivity.
    rewrite Ec. cbn [rbind].
    assert (Em : exists mt, (if fe && (D <? O) then Err ValueError else if fe then Ok (eye2 K D O) else tzip (sadd (s := K)) (eye2 K D O) (tmap (over D) (mkT [D; O] (rnd 1)))) = Ok mt /\ shp mt = [D; O] /\
      forall r o, r < D -> o < O -> get mt [r; o] = if fe then delta r o else sadd (delta r o) (over D (rnd 1 [r; o]))).
    { destruct fe.
      - destruct (Nat.ltb_spec D O); [specialize (Hfe eq_refl); lia|]. eexists. split; [reflexivity|]. split; reflexivity.
      - cbn [andb]. destruct (tzip_same (sadd (s := K)) (eye2 K D O) (tmap (over D) (mkT [D; O] (rnd 1))) [D; O] eq_refl eq_refl) as (v & Ev & Hv & Gv). rewrite Ev. eexists. split; [reflexivity|]. split; [exact Hv|].
        intros r o Hr Ho. rewrite Gv by (repeat constructor; assumption). reflexivity. }
    destruct Em as (mt & -> & Hmt & Gmt). cbn [rbind].
    assert (Eb : exists b, (if ub then if fb then Ok (Some (eye2 K D D)) else let* b := init_tensor K s0 [D; D] "lr" (ITuple "random_eye" std []) (mkT [D; D] (rnd 2)) in Ok (Some b) else Ok None) = Ok b /\
      if ub then exists b', b = Some b' /\ shp b' = [D; D] /\ forall l r, l < D -> r < D -> get b' [l; r] = if fb then delta l r else sadd (delta l r) (smul std (rnd 2 [l; r])) else b = None).
    { destruct ub; [|eexists; split; reflexivity]. destruct fb; [eexists; split; [reflexivity|eexists; split; [reflexivity|split; reflexivity]]|].
      edestruct (init_random_eye K s0 [D; D] "lr" std [] (mkT [D; D] (rnd 2))) as (t & Et & Hs & G); [reflexivity|reflexivity|apply nodupb_NoDup; reflexivity|left; exists [], [], []; split; reflexivity|].
      rewrite Et. cbn [rbind]. eexists. split; [reflexivity|]. exists t. split; [reflexivity|]. split; [exact Hs|]. intros l r Hl Hr. rewrite G by (repeat constructor; assumption). reflexivity. }
    destruct Eb as (b & -> & Hb). cbn [rbind]. eexists. split; [reflexivity|]. split.
    { unfold ti_trained. cbn. split; [reflexivity|]. split; [reflexivity|]. split; [reflexivity|]. split; [|reflexivity]. destruct b; [|exact Logic.I]. split; [reflexivity|auto]. }
    cbn [t_core t_vec t_mat t_bias]. split; [reflexivity|]. split; [reflexivity|]. split; [exact Hmt|]. split; [reflexivity|]. split; [reflexivity|]. split; [exact Gmt|exact Hb].
  Qed.
  Theorem C38_fixed_ends_rejected O D F par std ub fb over rnd : D < O -> ti_init K O D F par true std ub fb over rnd = Err ValueError.
  Proof. intros H. unfold ti_init. cbn [andb]. apply Nat.ltb_lt in H. rewrite H. reflexivity. Qed.
  (** ** C33 for TI_MPS: no history, for every input *)
  Theorem C33_ti_no_history O D F par fe std ub fb over rnd m0 m :
    ti_init K O D F par fe std ub fb over rnd = Ok m0 -> ti_trained m0 m ->
    forall inp g g', fst (ti_forward K m inp g) = fst (ti_forward K m inp g').
  Proof.
    intros Hi Ht inp g g'. pose proof (ti_init_built _ _ _ _ _ _ _ _ _ _ _ _ Hi Ht) as Hb.
    rewrite !ti_forward_eq. destruct (ti_format K m inp) as [x|]; [|reflexivity].
    destruct (ti_region _ _ _ _ _ _ _ (size 1 x) Hb) as (core & bias & Ec & Hc & _ & Er & Hbias & _).
    unfold after_format, mbind, lift. rewrite Ec, (tb_ub _ _ _ _ _ _ _ Hb), Er.
    destruct (region_history K core ub bias _ D F x Hc Hbias) as [(ex & E)|(a & B & E)]; rewrite !E; reflexivity.
  Qed.

  (** *** padding *)
  Lemma chain_ids D (l : list (nat * mat K)) : Forall (fun p => fst p = D /\ forall i j, i < D -> j < D -> snd p i j = delta i j) l ->
    forall i j, i < D -> chain l i j = delta i j.
  Proof.
    induction 1 as [|[n M] l [E H] _ IH]; intros i j Hi; [reflexivity|]. cbn in E, H. subst n. rewrite chain_cons.
    transitivity (mmul D (delta (K := K)) (delta (K := K)) i j); [apply mmul_ext; intros k Hk; [apply H; assumption|apply IH; exact Hk]|]. apply mmul_delta_l. exact Hi.
  Qed.
  Lemma ti_value_pad (m : ti_mps K) n N (px px' : nat -> vec K) o : n <= N ->
    (forall l r, l < t_bond m -> r < t_bond m -> ti_bias_mat m l r = delta l r) ->
    (forall s i, s < n -> i < t_feature m -> px s i = px' s i) ->
    (forall s i, n <= s < N -> i < t_feature m -> px s i = s0) ->
    ti_value m N px o = ti_value m n px' o.
  Proof.
    intros Hle Hb Hs Hz. unfold ti_value, sandwich. apply bsum_ext. intros i Hi. apply bsum_ext. intros j Hj. f_equal. f_equal.
    set (D := t_bond m) in *. set (F := t_feature m) in *.
    set (f := fun (p : nat -> vec K) s => (D, site_matrix F (fun l r i => get (t_core m) [l; r; i]) (ti_bias_mat m) (p s))).
    change (chain (map (f px) (seq 0 N)) i j = chain (map (f px') (seq 0 n)) i j).
    replace N with (n + (N - n)) by lia. rewrite seq_app, map_app, Nat.add_0_l, (chain_app K D) by exact Hi.
    assert (Ec : forall a k, cols K D (map (f px) (seq a k)) = D).
    { intros a k. apply cols_all. apply Forall_forall. intros q Hq. apply in_map_iff in Hq as (s & <- & _). reflexivity. }
    rewrite Ec. transitivity (mmul D (chain (map (f px') (seq 0 n))) (delta (K := K)) i j); [|apply mmul_delta_r; exact Hj].
    apply mmul_ext; intros k Hk.
    - apply (chain_eq_chain K D); [|exact Hi]. apply rcl_ext. intros s p q Hp _ _. unfold site_matrix. f_equal. apply bsum_ext. intros c Hc. rewrite Hs by (assumption || lia). reflexivity.
    - apply (chain_ids D); [|exact Hk]. apply Forall_forall. intros q Hq. apply in_map_iff in Hq as (s & <- & Hin). apply in_seq in Hin. split; [reflexivity|].
      intros p q' Hp Hq'. cbn [snd f]. unfold site_matrix. rewrite Hb by assumption. rewrite (bsum_zero K); [ring|]. intros c Hc. rewrite Hz by (assumption || lia). ring.
  Qed.
  Lemma max_ge (l : list nat) (n : nat) : In n l -> n <= fold_right Nat.max 0 l.
  Proof. induction l as [|y l IH]; [contradiction|]. intros [->|H]; cbn [fold_right]; [lia|specialize (IH H); lia]. Qed.
  Lemma max_all (l : list nat) (n : nat) : l <> [] -> (forall y, In y l -> y = n) -> fold_right Nat.max 0 l = n.
  Proof.
    induction l as [|y l IH]; intros Hne H; [contradiction|]. cbn [fold_right]. rewrite (H y (or_introl eq_refl)).
    destruct l as [|z l]; [cbn; lia|]. rewrite IH; [lia|discriminate|intros q Hq; apply H; right; exact Hq].
  Qed.

  (** sequences of feature vectors / of numbers *)
  Definition embedded_seqs (F : nat) (l : list T) : Prop := l <> [] /\ forall s, In s l -> exists n, shp s = [n; F].
  Definition raw_seqs (l : list T) : Prop := l <> [] /\ forall s, In s l -> exists n, shp s = [n].
  Definition longest (l : list T) : nat := fold_right Nat.max 0 (map (size 0) l).

  (** the checks of format_input pass on well-formed lists *)
  Lemma format_list (nm : nat) (l : list T) m : l <> [] -> nm = 1 \/ nm = 2 ->
    (forall s, In s l -> ndim s = nm /\ (nm = 2 -> size 1 s = t_feature m)) ->
    ti_format K m (TList l) =
      if negb (t_use_bias m && t_fixed_bias m) && existsb (fun s => negb (size 0 s =? longest l)) l then Err ValueError
      else let* b := (if t_use_bias m && t_fixed_bias m then Ok (pad_batch K nm (longest l) (t_feature m) l) else stack0 l) in
           if ndim b =? 2 then ti_embed K m b else Ok b.
  Proof.
    intros Hne Hnm H. destruct l as [|s0' l]; [contradiction|]. unfold ti_format.
    destruct (H s0' (or_introl eq_refl)) as [E0 _]. rewrite E0.
    assert (E1 : (nm =? 1) || (nm =? 2) = true) by (destruct Hnm; subst nm; reflexivity). rewrite E1. cbn [assert_ rbind].
    assert (E2 : forallb (fun s => ndim s =? nm) (s0' :: l) = true) by (apply forallb_forall; intros s Hs; apply Nat.eqb_eq; apply (H s Hs)). rewrite E2. cbn [assert_ rbind].
    assert (E3 : (nm =? 1) || forallb (fun s => size 1 s =? t_feature m) (s0' :: l) = true).
    { destruct Hnm; subst nm; [reflexivity|]. cbn [Nat.eqb orb]. apply forallb_forall; intros s Hs; apply Nat.eqb_eq; apply (H s Hs); reflexivity. }
    rewrite E3. cbn [assert_ rbind]. reflexivity.
  Qed.
  Lemma pad_embedded F (l : list T) : embedded_seqs F l ->
    shp (pad_batch K 2 (longest l) F l) = [List.length l; longest l; F] /\
    forall k s p i, nth_error l k = Some s -> p < longest l -> get (pad_batch K 2 (longest l) F l) [k; p; i] = if p <? size 0 s then get s [p; i] else s0.
  Proof.
    intros H. split; [reflexivity|]. intros k s p i Hk Hp. cbn [pad_batch get nth tl]. apply (nth_error_nth _ _ (tconst [] s0)) in Hk. rewrite Hk. reflexivity.
  Qed.

  (** ** C39 *)
  (** Padding is neutral for embedded sequences: entry k of the output is the contraction of
      sequence k alone, without padding *)
  Theorem C39_padding_neutral_embedded_partial O D F par fe std over rnd m0 m l g :
    ti_init K O D F par fe std true true over rnd = Ok m0 -> ti_trained m0 m ->
    embedded_seqs F l -> 1 <= longest l ->
    exists out, ti_forward K m (TList l) g = (Ok out, Some (List.length l)) /\ shp out = [List.length l; O] /\
      forall k s o, nth_error l k = Some s -> o < O ->
        get out [k; o] = ti_value m (size 0 s) (fun p i => get s [p; i]) o /\
        (1 <= size 0 s -> exists alone, ti_forward K m (TList [s]) g = (Ok alone, Some 1) /\ shp alone = [1; O] /\ get alone [0; o] = get out [k; o]).
  Proof.
    intros Hi Ht Hl Hn. pose proof (ti_init_built _ _ _ _ _ _ _ _ _ _ _ _ Hi Ht) as Hb.
    assert (Hbias : forall l r, ti_bias_mat m l r = delta l r).
    { destruct Hb. destruct tb_bias0 as (b & E & _ & Hf). intros i j. unfold ti_bias_mat. rewrite tb_ub0, E. rewrite (Hf eq_refl). reflexivity. }
    assert (R : forall l', embedded_seqs F l' -> 1 <= longest l' ->
      exists out, ti_forward K m (TList l') g = (Ok out, Some (List.length l')) /\ shp out = [List.length l'; O] /\
      forall k s o, nth_error l' k = Some s -> o < O -> get out [k; o] = ti_value m (size 0 s) (fun p i => get s [p; i]) o).
    { intros l' Hl' Hn'. destruct (pad_embedded F l' Hl') as [Hp Gp].
      assert (Ef : ti_format K m (TList l') = Ok (pad_batch K 2 (longest l') F l')).
      { rewrite (format_list 2); [|apply Hl'|right; reflexivity|].
        - destruct Hb. rewrite tb_ub0, tb_fb0, tb_feat0. cbn [andb negb rbind]. unfold ndim. rewrite Hp. reflexivity.
        - destruct Hb. intros s Hs. destruct (proj2 Hl' s Hs) as (n & E). unfold ndim, size. rewrite E, tb_feat0. split; [reflexivity|reflexivity]. }
      destruct (after_format_value _ _ _ _ _ _ _ _ _ _ g Hb Hp Hn') as (out & Eo & Ho & Go).
      exists out. rewrite ti_forward_eq, Ef. split; [exact Eo|]. split; [exact Ho|]. intros k s o Hk Hoo.
      assert (Hkl : k < List.length l') by (apply nth_error_Some; congruence).
      assert (Hsl : size 0 s <= longest l') by (apply max_ge; apply in_map; eapply nth_error_In; exact Hk).
      rewrite Go by assumption. apply ti_value_pad; [exact Hsl|intros; apply Hbias| |].
      - intros p i Hp' _. rewrite (Gp k s) by (assumption || lia). apply Nat.ltb_lt in Hp'. rewrite Hp'. reflexivity.
      - intros p i [Hp' Hp''] _. rewrite (Gp k s) by (assumption || lia). apply Nat.ltb_ge in Hp'. rewrite Hp'. reflexivity. }
    destruct (R l Hl Hn) as (out & Eo & Ho & Go). exists out. split; [exact Eo|]. split; [exact Ho|]. intros k s o Hk Hoo. split; [apply Go; assumption|].
    intros Hs. destruct (R [s]) as (al & Ea & Ha & Ga).
    - split; [discriminate|]. intros s' [<-|[]]. apply (proj2 Hl). eapply nth_error_In; exact Hk.
    - unfold longest. cbn. lia.
    - exists al. split; [exact Ea|]. split; [exact Ha|]. rewrite (Ga 0 s o eq_refl Hoo), (Go k s o Hk Hoo). reflexivity.
  Qed.

  (** the feature map in use *)
  Definition uses_map (m : ti_mps K) (F : nat) (phi : K -> vec K) : Prop :=
    (t_fmap m = None /\ F = 2 /\ phi = linear_map K) \/ (exists f, t_fmap m = Some f /\ maps_to K F f phi).
  Lemma ti_embed_ok m F phi x B n : t_feature m = F -> uses_map m F phi -> shp x = [B; n] -> 0 < B -> 0 < n ->
    exists e, ti_embed K m x = Ok e /\ embedded K B n F phi x e.
  Proof.
    intros Hf Hm Hx HB Hn. unfold ti_embed, ndim, size. rewrite Hx. cbn [List.length Nat.eqb assert_ rbind nth]. rewrite Hf.
    destruct Hm as [(-> & -> & ->)|(f & -> & Hm)].
    - exists (embed_default K x). split; [reflexivity|]. apply embed_default_ok. exact Hx.
    - destruct (embed_map_ok K f phi F x B n Hm Hx HB Hn) as (e & Ee & He). rewrite Ee. cbn [rbind]. rewrite (proj1 He), list_eqb_refl. exists e. split; [reflexivity|exact He].
  Qed.
  (** Raw sequences are padded with the number 0 before they are embedded: what is evaluated is the
      sequence followed by phi(0), phi(0), ... *)
  Theorem C39_raw_padded_partial O D F par fe std over rnd m0 m phi l g :
    ti_init K O D F par fe std true true over rnd = Ok m0 -> ti_trained m0 m ->
    uses_map m F phi -> raw_seqs l -> 1 <= longest l ->
    exists out, ti_forward K m (TList l) g = (Ok out, Some (List.length l)) /\ shp out = [List.length l; O] /\
      forall k s o, nth_error l k = Some s -> o < O ->
        get out [k; o] = ti_value m (longest l) (fun p => phi (if p <? size 0 s then get s [p] else s0)) o.
  Proof.
    intros Hi Ht Hm Hl Hn. pose proof (ti_init_built _ _ _ _ _ _ _ _ _ _ _ _ Hi Ht) as Hb.
    set (b := pad_batch K 1 (longest l) F l).
    assert (Hlen : 0 < List.length l) by (destruct l; [exfalso; apply (proj1 Hl); reflexivity|cbn; lia]).
    destruct (ti_embed_ok m F phi b (List.length l) (longest l) (tb_feat _ _ _ _ _ _ _ Hb) Hm eq_refl Hlen Hn) as (e & Ee & He & Ge).
    assert (Ef : ti_format K m (TList l) = Ok e).
    { rewrite (format_list 1); [|apply Hl|left; reflexivity|].
      - destruct Hb. rewrite tb_ub0, tb_fb0, tb_feat0. cbn [andb negb rbind]. fold b. exact Ee.
      - intros s Hs. destruct (proj2 Hl s Hs) as (n & E). unfold ndim. rewrite E. split; [reflexivity|discriminate]. }
    destruct (after_format_value _ _ _ _ _ _ _ _ _ _ g Hb He Hn) as (out & Eo & Ho & Go).
    exists out. rewrite ti_forward_eq, Ef. split; [exact Eo|]. split; [exact Ho|]. intros k s o Hk Hoo.
    assert (Hkl : k < List.length l) by (apply nth_error_Some; congruence).
    rewrite Go by assumption. unfold ti_value, sandwich. apply bsum_ext. intros i Hi'. apply bsum_ext. intros j Hj. f_equal. f_equal.
    apply (chain_eq_chain K (t_bond m)); [|exact Hi']. apply rcl_ext. intros p a c Hp _ _. unfold site_matrix. f_equal. apply bsum_ext. intros q Hq.
    rewrite (tb_feat _ _ _ _ _ _ _ Hb) in Hq. rewrite Ge by (assumption || lia). unfold b. cbn [pad_batch get nth tl].
    apply (nth_error_nth _ _ (tconst [] s0)) in Hk. rewrite Hk. reflexivity.
  Qed.
  (** so the padding is neutral for raw sequences too when the feature map sends 0 to the zero
      vector, or when no padding is needed; it is not for the default map (refuted below) *)
  Theorem C39_raw_neutral_partial O D F par fe std over rnd m0 m phi l g :
    ti_init K O D F par fe std true true over rnd = Ok m0 -> ti_trained m0 m ->
    uses_map m F phi -> raw_seqs l -> 1 <= longest l ->
    (forall i, i < F -> phi s0 i = s0) \/ (forall s, In s l -> size 0 s = longest l) ->
    exists out, ti_forward K m (TList l) g = (Ok out, Some (List.length l)) /\ shp out = [List.length l; O] /\
      forall k s o, nth_error l k = Some s -> o < O ->
        get out [k; o] = ti_value m (size 0 s) (fun p => phi (get s [p])) o.
  Proof.
    intros Hi Ht Hm Hl Hn Hphi. pose proof (ti_init_built _ _ _ _ _ _ _ _ _ _ _ _ Hi Ht) as Hb.
    destruct (C39_raw_padded_partial _ _ _ _ _ _ _ _ _ _ _ _ g Hi Ht Hm Hl Hn) as (out & Eo & Ho & Go). exists out. split; [exact Eo|]. split; [exact Ho|].
    intros k s o Hk Hoo. rewrite (Go k s o Hk Hoo). apply ti_value_pad.
    - apply max_ge. apply in_map. eapply nth_error_In; exact Hk.
    - destruct Hb. destruct tb_bias0 as (b & E & _ & Hf). intros i j _ _. unfold ti_bias_mat. rewrite tb_ub0, E. rewrite (Hf eq_refl). reflexivity.
    - intros p i Hp _. apply Nat.ltb_lt in Hp. rewrite Hp. reflexivity.
    - intros p i [Hp Hp'] Hif. destruct Hphi as [Hphi|Heq].
      + apply Nat.ltb_ge in Hp. rewrite Hp. apply Hphi. rewrite (tb_feat _ _ _ _ _ _ _ Hb) in Hif. exact Hif.
      + rewrite (Heq s) in Hp by (eapply nth_error_In; exact Hk). lia.
  Qed.

  (** ** C40 *)
  Theorem C40_ragged O D F par fe std ub fb over rnd m0 m l :
    ti_init K O D F par fe std ub fb over rnd = Ok m0 -> ti_trained m0 m -> ub && fb = false ->
    embedded_seqs F l \/ raw_seqs l -> (exists s s', In s l /\ In s' l /\ size 0 s <> size 0 s') ->
    ti_format K m (TList l) = Err ValueError.
  Proof.
    intros Hi Ht Hub Hl (s & s' & H1 & H2 & Hne). pose proof (ti_init_built _ _ _ _ _ _ _ _ _ _ _ _ Hi Ht) as Hb. destruct Hb.
    assert (E : existsb (fun s => negb (size 0 s =? longest l)) l = true).
    { apply existsb_exists. destruct (Nat.eq_dec (size 0 s) (longest l)) as [e|e].
      - exists s'. split; [exact H2|]. apply negb_true_iff, Nat.eqb_neq. congruence.
      - exists s. split; [exact H1|]. apply negb_true_iff, Nat.eqb_neq. exact e. }
    destruct Hl as [Hl|Hl].
    - rewrite (format_list 2); [|apply Hl|right; reflexivity|].
      + rewrite tb_ub0, tb_fb0, Hub, E. reflexivity.
      + intros q Hq. destruct (proj2 Hl q Hq) as (n & Eq). unfold ndim, size. rewrite Eq, tb_feat0. split; reflexivity.
    - rewrite (format_list 1); [|apply Hl|left; reflexivity|].
      + rewrite tb_ub0, tb_fb0, Hub, E. reflexivity.
      + intros q Hq. destruct (proj2 Hl q Hq) as (n & Eq). unfold ndim. rewrite Eq. split; [reflexivity|discriminate].
  Qed.
  Theorem C40_stack_embedded O D F par fe std ub fb over rnd m0 m l n :
    ti_init K O D F par fe std ub fb over rnd = Ok m0 -> ti_trained m0 m -> ub && fb = false ->
    l <> [] -> (forall s, In s l -> shp s = [n; F]) ->
    exists b, ti_format K m (TList l) = Ok b /\ shp b = [List.length l; n; F] /\
      forall k s p i, nth_error l k = Some s -> get b [k; p; i] = get s [p; i].
  Proof.
    intros Hi Ht Hub Hne Hl. pose proof (ti_init_built _ _ _ _ _ _ _ _ _ _ _ _ Hi Ht) as Hb. destruct Hb.
    assert (El : longest l = n) by (apply max_all; [destruct l; [contradiction|discriminate]|intros y Hy; apply in_map_iff in Hy as (s & <- & Hs); unfold size; rewrite (Hl s Hs); reflexivity]).
    destruct (stack0_ok l [n; F] (tconst [] s0) Hne) as (b & Eb & Hsb & Gb); [apply Forall_forall; exact Hl|].
    exists b. split; [|split; [exact Hsb|]].
    - rewrite (format_list 2); [|exact Hne|right; reflexivity|].
      + rewrite tb_ub0, tb_fb0, Hub, El. assert (E : existsb (fun s => negb (size 0 s =? n)) l = false).
        { apply not_true_is_false. intros H. apply existsb_exists in H as (s & Hs & H). unfold size in H. rewrite (Hl s Hs) in H. cbn [nth] in H. rewrite Nat.eqb_refl in H. discriminate. }
        rewrite E. cbn [negb andb]. rewrite Eb. cbn [rbind]. unfold ndim. rewrite Hsb. reflexivity.
      + intros q Hq. unfold ndim, size. rewrite (Hl q Hq), tb_feat0. split; reflexivity.
    - intros k s p i Hk. rewrite Gb by (apply nth_error_Some; congruence). apply (nth_error_nth _ _ (tconst [] s0)) in Hk. rewrite Hk. reflexivity.
  Qed.
  Theorem C40_stack_raw O D F par fe std ub fb over rnd m0 m phi l n :
    ti_init K O D F par fe std ub fb over rnd = Ok m0 -> ti_trained m0 m -> ub && fb = false -> uses_map m F phi ->
    l <> [] -> 0 < n -> (forall s, In s l -> shp s = [n]) ->
    exists b, ti_format K m (TList l) = Ok b /\ shp b = [List.length l; n; F] /\
      forall k s p i, nth_error l k = Some s -> p < n -> i < F -> get b [k; p; i] = phi (get s [p]) i.
  Proof.
    intros Hi Ht Hub Hm Hne Hn Hl. pose proof (ti_init_built _ _ _ _ _ _ _ _ _ _ _ _ Hi Ht) as Hb. destruct Hb.
    assert (El : longest l = n) by (apply max_all; [destruct l; [contradiction|discriminate]|intros y Hy; apply in_map_iff in Hy as (s & <- & Hs); unfold size; rewrite (Hl s Hs); reflexivity]).
    destruct (stack0_ok l [n] (tconst [] s0) Hne) as (b & Eb & Hsb & Gb); [apply Forall_forall; exact Hl|].
    assert (Hlen : 0 < List.length l) by (destruct l; [contradiction|cbn; lia]).
    destruct (ti_embed_ok m F phi b (List.length l) n tb_feat0 Hm Hsb Hlen Hn) as (e & Ee & He & Ge).
    exists e. split; [|split; [exact He|]].
    - rewrite (format_list 1); [|exact Hne|left; reflexivity|].
      + rewrite tb_ub0, tb_fb0, Hub, El. assert (E : existsb (fun s => negb (size 0 s =? n)) l = false).
        { apply not_true_is_false. intros H. apply existsb_exists in H as (s & Hs & H). unfold size in H. rewrite (Hl s Hs) in H. cbn [nth] in H. rewrite Nat.eqb_refl in H. discriminate. }
        rewrite E. cbn [negb andb]. rewrite Eb. cbn [rbind]. unfold ndim. rewrite Hsb. exact Ee.
      + intros q Hq. unfold ndim. rewrite (Hl q Hq). split; [reflexivity|discriminate].
    - intros k s p i Hk Hp Hif. assert (Hkl : k < List.length l) by (apply nth_error_Some; congruence).
      rewrite Ge by assumption. rewrite Gb by exact Hkl. apply (nth_error_nth _ _ (tconst [] s0)) in Hk. rewrite Hk. reflexivity.
  Qed.
  (** with use_bias = fixed_bias = True no list of embedded sequences is rejected *)
  Theorem C40_padding_accepts O D F par fe std over rnd m0 m l :
    ti_init K O D F par fe std true true over rnd = Ok m0 -> ti_trained m0 m -> embedded_seqs F l ->
    exists b, ti_format K m (TList l) = Ok b /\ shp b = [List.length l; longest l; F].
  Proof.
    intros Hi Ht Hl. pose proof (ti_init_built _ _ _ _ _ _ _ _ _ _ _ _ Hi Ht) as Hb. destruct Hb.
    exists (pad_batch K 2 (longest l) F l). split; [|reflexivity]. rewrite (format_list 2); [|apply Hl|right; reflexivity|].
    - rewrite tb_ub0, tb_fb0, tb_feat0. reflexivity.
    - intros q Hq. destruct (proj2 Hl q Hq) as (n & Eq). unfold ndim, size. rewrite Eq, tb_feat0. split; reflexivity.
  Qed.

  (** ** C36 for TI_MPS *)
  Theorem C36_ti_raw O D F par fe std ub fb over rnd m0 m phi x B n g :
    ti_init K O D F par fe std ub fb over rnd = Ok m0 -> ti_trained m0 m -> uses_map m F phi ->
    shp x = [B; n] -> 0 < B -> 0 < n ->
    exists e, embedded K B n F phi x e /\ ti_forward K m (TTensor x) g = ti_forward K m (TTensor e) g.
  Proof.
    intros Hi Ht Hm Hx HB Hn. pose proof (ti_init_built _ _ _ _ _ _ _ _ _ _ _ _ Hi Ht) as Hb. destruct Hb.
    destruct (ti_embed_ok m F phi x B n tb_feat0 Hm Hx HB Hn) as (e & Ee & He & Ge). exists e. split; [split; assumption|].
    rewrite !ti_forward_eq, (ti_format_pre m e B n F tb_feat0 He).
    assert (E : ti_format K m (TTensor x) = Ok e); [|rewrite E; reflexivity].
    unfold ti_format, ndim, size. rewrite Hx. cbn [List.length Nat.eqb]. rewrite Ee. cbn [rbind]. unfold ndim, size. rewrite He, tb_feat0. cbn [List.length Nat.eqb assert_ rbind nth]. rewrite Nat.eqb_refl. reflexivity.
  Qed.
  Theorem C36_ti_register O D F par fe std ub fb over rnd m0 m f t :
    ti_init K O D F par fe std ub fb over rnd = Ok m0 -> ti_trained m0 m -> f s0 = Ok t ->
    (shp t <> [F] -> ti_register K m (Some f) = Err ValueError) /\
    (shp t = [F] -> exists m', ti_register K m (Some f) = Ok m' /\ t_fmap m' = Some f /\ ti_trained m0 m').
  Proof.
    intros Hi Ht Hf. pose proof (ti_init_built _ _ _ _ _ _ _ _ _ _ _ _ Hi Ht) as Hb. destruct Hb. unfold ti_register. rewrite Hf. cbn [rbind]. rewrite <- tb_feat0. split.
    - intros Hs. destruct (list_eqb (shp t) [t_feature m]) eqn:E; [apply list_eqb_eq in E; contradiction|reflexivity].
    - intros Hs. rewrite Hs, list_eqb_refl. cbn [rbind]. eexists. split; [reflexivity|]. split; [reflexivity|].
      destruct Ht as (H1 & H2 & H3 & H4 & H5). rewrite H5. cbn. unfold ti_trained. cbn. split; [exact H1|]. split; [exact H2|]. split; [exact H3|]. split; [exact H4|reflexivity].
  Qed.
End P.

(** *** examples, and the refutation of C39 for raw sequences with the default feature map *)
Definition ti_ex (ub fb : bool) : ti_mps Z_cring :=
  match ti_init Z_cring 2 2 2 false true (1%Z : Z_cring) ub fb (fun _ z => z) tick with
  | Ok m => m | Err _ => mkTi Z_cring 0 0 0 false false false (tconst [] 0%Z) (tconst [] 0%Z) (tconst [] 0%Z) None None end.
Lemma ti_ex_built ub fb : ti_init Z_cring 2 2 2 false true (1%Z : Z_cring) ub fb (fun _ z => z) tick = Ok (ti_ex ub fb) /\ ti_trained (ti_ex ub fb) (ti_ex ub fb).
Proof.
  destruct (C38_constructor Z_cring 2 2 2 false true (1%Z : Z_cring) ub fb (fun _ z => z) tick (fun _ => le_n 2)) as (m & Em & Ht & _).
  unfold ti_ex. rewrite Em. split; [reflexivity|exact Ht].
Qed.
Definition raw_seq (l : list Z) : tensor Z_cring := mkT [List.length l] (fun i => nth (nth 0 i 0) l 0%Z).
Definition emb_seq (n : nat) : tensor Z_cring := mkT [n; 2] (fun i => tick 0 i).
Definition row (r : res (tensor Z_cring)) (k : nat) : option (list Z) := match r with Ok o => Some [get o [k; 0]; get o [k; 1]] | Err _ => None end.
(** the sequence (5) evaluated alone and next to (5, 7): the padded 0 becomes the vector (0, 1) *)
Theorem C39_raw_refuted : exists (m0 m : ti_mps Z_cring) s s',
  ti_init Z_cring 2 2 2 false true (1%Z : Z_cring) true true (fun _ z => z) tick = Ok m0 /\ ti_trained m0 m /\ t_fmap m = None /\
  raw_seqs Z_cring [s; s'] /\ size 0 s = 1 /\
  exists alone both, fst (ti_forward Z_cring m (TList [s]) None) = Ok alone /\ fst (ti_forward Z_cring m (TList [s; s']) None) = Ok both /\
    get alone [0; 0] <> get both [0; 0].
Proof.
  destruct (ti_ex_built true true) as [Hi Ht]. exists (ti_ex true true), (ti_ex true true), (raw_seq [5%Z]), (raw_seq [5%Z; 7%Z]).
  split; [exact Hi|]. split; [exact Ht|]. split; [reflexivity|]. split.
  { split; [discriminate|]. intros s [<-|[<-|[]]]; eexists; reflexivity. }
  split; [reflexivity|].
  assert (R : forall l, raw_seqs Z_cring l -> 1 <= longest Z_cring l -> exists out, fst (ti_forward Z_cring (ti_ex true true) (TList l) None) = Ok out /\
    forall k s o, nth_error l k = Some s -> o < 2 -> get out [k; o] = ti_value (ti_ex true true) (longest Z_cring l) (fun p => linear_map Z_cring (if p <? size 0 s then get s [p] else 0%Z)) o).
  { intros l Hl Hn. destruct (C39_raw_padded_partial Z_cring _ _ _ _ _ _ _ _ _ _ (linear_map Z_cring) l None Hi Ht) as (out & Eo & _ & Go); [left; repeat split|exact Hl|exact Hn|].
    exists out. rewrite Eo. split; [reflexivity|exact Go]. }
  destruct (R [raw_seq [5%Z]]) as (al & Ea & Ga); [split; [discriminate|]; intros s [<-|[]]; eexists; reflexivity|cbn; lia|].
  destruct (R [raw_seq [5%Z]; raw_seq [5%Z; 7%Z]]) as (bo & Eb & Gb); [split; [discriminate|]; intros s [<-|[<-|[]]]; eexists; reflexivity|cbn; lia|].
  exists al, bo. split; [exact Ea|]. split; [exact Eb|].
  rewrite (Ga 0 _ 0 eq_refl ltac:(lia)), (Gb 0 _ 0 eq_refl ltac:(lia)). vm_compute. discriminate.
Qed.
Example ex_ti_padding : embedded_seqs Z_cring 2 [emb_seq 1; emb_seq 3] /\ longest Z_cring [emb_seq 1; emb_seq 3] = 3 /\
  row (fst (ti_forward Z_cring (ti_ex true true) (TList [emb_seq 1; emb_seq 3]) None)) 0 = row (fst (ti_forward Z_cring (ti_ex true true) (TList [emb_seq 1]) None)) 0 /\
  row (fst (ti_forward Z_cring (ti_ex true true) (TList [emb_seq 1; emb_seq 3]) None)) 1 =
    Some [ti_value (ti_ex true true) 3 (fun p i => get (emb_seq 3) [p; i]) 0; ti_value (ti_ex true true) 3 (fun p i => get (emb_seq 3) [p; i]) 1] /\
  ti_value (ti_ex true true) 3 (fun p i => get (emb_seq 3) [p; i]) 0 <> ti_value (ti_ex true true) 1 (fun p i => get (emb_seq 1) [p; i]) 0.
Proof.
  split; [split; [discriminate|]; intros s [<-|[<-|[]]]; eexists; reflexivity|]. split; [reflexivity|].
  split; [vm_compute; reflexivity|]. split; [vm_compute; reflexivity|]. vm_compute. discriminate.
Qed.
Example ex_ti_ragged : match ti_format Z_cring (ti_ex true false) (TList [emb_seq 1; emb_seq 3]) with Err ValueError => true | _ => false end = true /\
  match ti_format Z_cring (ti_ex false true) (TList [emb_seq 3; emb_seq 3]) with Ok t => Some (shp t) | _ => None end = Some [2; 3; 2].
Proof. split; vm_compute; reflexivity. Qed.
Print Assumptions C39_padding_neutral_embedded_partial.
