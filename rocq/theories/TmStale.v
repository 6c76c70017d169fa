(** * TmStale: regions that begin with the output core, evaluated with any global batch size.
    The output core is expanded to the batch size of an earlier call (contractables.py:37-45),
    the other factors have the batch size of the input; einsum broadcasts the two. *)
From Verif Require Import Base Scalars Tensor Spec LinAlg EinsumProofs Contractables ContrSpec ContrProofs ContrReduce Utils TorchMps TmSpec TmProofs.

Section P.
  Variable K : cring.
  Add Ring Kr : (rth K).
  Notation at_ := (atom K).
  Notation T := (tensor K).

  Ltac eins_b E :=
    unfold einsum;
    match goal with |- context [parse_eins ?s] =>
      let r := eval vm_compute in (parse_eins s) in change (parse_eins s) with r end;
    cbv iota beta; cbn [add_ops];
    repeat match goal with H : shp ?t = _ |- context [shp ?t] => rewrite H end;
    cbn [add_labels elook Ascii.eqb Bool.eqb app eset add_ops mapopt inlabels existsb filter fst snd negb orb andb];
    repeat (rewrite ?bdim_refl, ?E;
            cbn [add_labels elook Ascii.eqb Bool.eqb app eset add_ops mapopt inlabels existsb filter fst snd negb orb andb]).
  Lemma e_core_vec_b (t u : T) B1 B2 Bc O r m : shp t = [B1; O; r; m] -> shp u = [B2; m] -> bdim B1 B2 = Some Bc ->
    exists v, einsum "bolz,bz->bol" [t; u] = Ok v /\ shp v = [Bc; O; r] /\
      forall b o i, o < O -> i < r -> get v [b; o; i] = bsum m (fun k => smul (get t [bidx B1 b; o; i; k]) (get u [bidx B2 b; k])).
  Proof.
    intros Ht Hu E. eins_b E. eexists. split; [reflexivity|]. split; [reflexivity|]. intros b o i Ho Hi. eins_get.
    apply bsum_ext. intros k Hk. rewrite !(bidx_valid O o), !(bidx_valid r i), !(bidx_valid m k) by assumption. reflexivity.
  Qed.
  Lemma e_core_vec_err (t u : T) B1 B2 O r m : shp t = [B1; O; r; m] -> shp u = [B2; m] -> bdim B1 B2 = None ->
    einsum "bolz,bz->bol" [t; u] = Err RuntimeError.
  Proof. intros Ht Hu E. eins_b E. reflexivity. Qed.
  Lemma e_vec_outvec_b (t u : T) B1 B2 Bc O m : shp t = [B1; m] -> shp u = [B2; O; m] -> bdim B1 B2 = Some Bc ->
    exists v, einsum "bz,boz->bo" [t; u] = Ok v /\ shp v = [Bc; O] /\
      forall b o, o < O -> get v [b; o] = bsum m (fun k => smul (get t [bidx B1 b; k]) (get u [bidx B2 b; o; k])).
  Proof.
    intros Ht Hu E. eins_b E. eexists. split; [reflexivity|]. split; [reflexivity|]. intros b o Ho. eins_get.
    apply bsum_ext. intros k Hk. rewrite !(bidx_valid O o), !(bidx_valid m k) by assumption. reflexivity.
  Qed.
  Lemma e_core_mat_b (t u : T) B1 B2 Bc O r m c : shp t = [B1; O; r; m] -> shp u = [B2; m; c] -> bdim B1 B2 = Some Bc ->
    exists v, einsum "bolz,bzr->bolr" [t; u] = Ok v /\ shp v = [Bc; O; r; c] /\
      forall b o i j, o < O -> i < r -> j < c -> get v [b; o; i; j] = bsum m (fun k => smul (get t [bidx B1 b; o; i; k]) (get u [bidx B2 b; k; j])).
  Proof.
    intros Ht Hu E. eins_b E. eexists. split; [reflexivity|]. split; [reflexivity|]. intros b o i j Ho Hi Hj. eins_get.
    apply bsum_ext. intros k Hk. rewrite !(bidx_valid O o), !(bidx_valid m k), !(bidx_valid r i), !(bidx_valid c j) by assumption. reflexivity.
  Qed.
  Lemma e_core_mat_err (t u : T) B1 B2 O r m c : shp t = [B1; O; r; m] -> shp u = [B2; m; c] -> bdim B1 B2 = None ->
    einsum "bolz,bzr->bolr" [t; u] = Err RuntimeError.
  Proof. intros Ht Hu E. eins_b E. reflexivity. Qed.

  (** *** the right part of a chain is contracted first, whatever stands on its left *)
  Lemma loop_step (pre : list (contr K)) x y fuel g : pre <> [] ->
    reduce_loop K (Datatypes.S fuel) (pre ++ [Atom x; Atom y]) g =
    mbind (try_type (mul_last K (pre ++ [Atom x; Atom y])) (mul_first K (pre ++ [Atom x; Atom y]))) (reduce_loop K fuel) g.
  Proof.
    intros Hp. destruct (two_elems (pre ++ [Atom x; Atom y])) as (u & v & w & E); [rewrite app_length; cbn; lia|].
    rewrite E. apply reduce_loop_step.
  Qed.
  Lemma none_none o1 o2 : oplus o1 o2 = None \/ oplus o1 o2 = None -> o1 = None /\ o2 = None.
  Proof. destruct o1, o2; cbn; intros [H|H]; try discriminate; auto. Qed.
  Lemma suffix_right B : forall n l r R, List.length l = n -> chain_typed (S := K) B r (l ++ [R]) 1 None -> Forall (is_mid K) l -> a_bond R = "bl"%string ->
    forall pre fuel g, pre <> [] -> exists z,
      reduce_loop K (n + fuel) (pre ++ map Atom (l ++ [R])) g = reduce_loop K fuel (pre ++ [Atom z]) (match l with [] => g | _ => Some B end) /\
      typed z B r 1 None /\ a_bond z = "bl"%string /\
      forall b o i j, b < B -> i < r -> j < 1 -> meaning z b o i j = product (l ++ [R]) b o i j.
  Proof.
    induction n as [|n IH]; intros l r R Hn Hc Hm HR pre fuel g Hp.
    - destruct l; [|discriminate]. cbn [app] in *. exists R. split; [reflexivity|].
      assert (TR : typed R B r 1 None) by (inversion Hc as [|? ? ? m ? ? Ha H2|]; subst; inversion H2; subst; exact Ha).
      split; [exact TR|]. split; [exact HR|]. intros b o i j Hb Hi Hj. symmetry. apply product_one. rewrite (typed_ncols K _ _ _ _ _ TR). exact Hj.
    - destruct (exists_last (l := l)) as (l0 & x & ->); [intros ->; discriminate|]. rewrite app_length in Hn. cbn [List.length] in Hn.
      apply Forall_app in Hm as [Hm0 Hmx]. apply Forall_inv in Hmx.
      rewrite <- app_assoc in Hc |- *. cbn [app] in Hc |- *.
      destruct (chain_split K B x R [] l0 _ _ _ Hc) as (r' & m & c' & o1 & o2 & Tx & Ty & _ & Ho & Hz).
      destruct (none_none _ _ Ho) as [-> ->]. cbn [oplus] in Hz.
      assert (c' = 1) as -> by (inversion Ty; subst; cbn [a_bond] in HR; try discriminate HR; reflexivity).
      destruct (step_right K x R B r' m 1 None None Tx Ty Hmx (or_introl HR) (or_introl eq_refl)) as [(zb & HP & Hzb)|(_ & F & _)]; [|contradiction].
      destruct (HP g) as (z & Ez & Tz & Bz & Mz). cbn [oplus] in Tz, Mz.
      assert (Bz' : a_bond z = "bl"%string).
      { destruct Hzb as [Q|Q]; rewrite Q in Bz; [exact Bz|]. exfalso. clear -Tz Bz. inversion Tz; subst; cbn [a_bond] in Bz; discriminate Bz. }
      destruct (Hz z Tz ltac:(intros; apply Mz; assumption)) as [Hcz Hpz].
      destruct (IH l0 r z ltac:(lia) Hcz Hm0 Bz' pre fuel (Some B) Hp) as (w & Ew & Tw & Bw & Mw).
      exists w. split; [|split; [exact Tw|split; [exact Bw|]]].
      + rewrite map_app. cbn [map]. rewrite app_assoc. cbn [Nat.add].
        rewrite loop_step by (destruct pre; [contradiction|discriminate]).
        unfold mbind at 1, try_type. rewrite mul_last_app. unfold mbind. rewrite Ez. cbn [ret].
        rewrite <- app_assoc. change [Atom z] with (map Atom [z]). rewrite <- map_app.
        refine (eq_trans Ew _). destruct l0; reflexivity.
      + intros b o i j Hb Hi Hj. rewrite (Mw b o i j Hb Hi Hj). transitivity (product (l0 ++ [z]) b 0 i j).
        { rewrite (product_none K _ _ _ _ b o Hcz). reflexivity. }
        rewrite (product_none K _ _ _ _ b o Hc). apply Hpz; [exact Hb|cbn; lia|exact Hi].
  Qed.
  Lemma suffix_mid B c : forall n l r, List.length l = Datatypes.S n -> chain_typed (S := K) B r l c None -> Forall (is_mid K) l -> Forall (noregion K) l ->
    forall pre fuel g, pre <> [] -> exists z g',
      reduce_loop K (n + fuel) (pre ++ map Atom l) g = reduce_loop K fuel (pre ++ [Atom z]) g' /\ (g = Some B -> g' = Some B) /\
      typed z B r c None /\ a_bond z = "blr"%string /\
      forall b o i j, b < B -> i < r -> j < c -> meaning z b o i j = product l b o i j.
  Proof.
    induction n as [|n IH]; intros l r Hn Hc Hm Hr pre fuel g Hp.
    - destruct l as [|a [|]]; try discriminate. exists a, g. split; [reflexivity|]. split; [auto|].
      assert (Ta : typed a B r c None) by (inversion Hc as [|? ? ? m ? ? Ha H2|]; subst; inversion H2; subst; exact Ha).
      apply Forall_inv in Hm. apply Forall_inv in Hr.
      split; [exact Ta|]. split.
      + unfold is_mid, noregion in *. inversion Ta; subst; cbn [a_bond] in *; try reflexivity; exfalso; (destruct Hm as [E|[E|E]]; discriminate E) || (apply Hr; reflexivity).
      + intros b o i j Hb Hi Hj. symmetry. apply product_one. rewrite (typed_ncols K _ _ _ _ _ Ta). exact Hj.
    - destruct (exists_last (l := l)) as (l1 & y & ->); [intros ->; discriminate|].
      rewrite app_length in Hn. cbn [List.length] in Hn.
      destruct (exists_last (l := l1)) as (l0 & x & ->); [intros ->; cbn in Hn; lia|].
      rewrite app_length in Hn. cbn [List.length] in Hn.
      rewrite <- app_assoc in *. cbn [app] in *.
      apply Forall_app in Hm as [Hm0 Hmx]. apply Forall_inv in Hmx as Mx. apply Forall_inv_tail in Hmx. apply Forall_inv in Hmx as My.
      apply Forall_app in Hr as [Hr0 Hrx]. apply Forall_inv in Hrx as Nx. apply Forall_inv_tail in Hrx. apply Forall_inv in Hrx as Ny.
      destruct (chain_split K B x y [] l0 _ _ _ Hc) as (r' & m & c' & o1 & o2 & Tx & Ty & _ & Ho & Hz).
      destruct (none_none _ _ Ho) as [-> ->]. cbn [oplus] in Hz.
      pose proof (step_mid K x y B r' m c' None None Tx Ty Mx My Nx Ny (or_introl eq_refl)) as HP. cbn [oplus] in HP.
      destruct (HP g) as (z & Ez & Tz & Bz & Mz). destruct (Hz z Tz Mz) as [Hcz Hpz].
      destruct (IH (l0 ++ [z]) r) with (pre := pre) (fuel := fuel) (g := Some B) as (w & g' & Ew & Hg' & Tw & Bw & Mw); try assumption.
      { rewrite app_length. cbn. lia. }
      { apply Forall_app. split; [exact Hm0|]. constructor; [|constructor]. unfold is_mid. rewrite Bz. auto. }
      { apply Forall_app. split; [exact Hr0|]. constructor; [|constructor]. unfold noregion. rewrite Bz. discriminate. }
      exists w, g'. split; [|split; [auto|split; [exact Tw|split; [exact Bw|]]]].
      + rewrite map_app. cbn [map]. rewrite app_assoc. cbn [Nat.add].
        rewrite loop_step by (destruct pre; [contradiction|discriminate]).
        unfold mbind at 1, try_type. rewrite mul_last_app. unfold mbind. rewrite Ez. cbn [ret].
        rewrite <- app_assoc. change [Atom z] with (map Atom [z]). rewrite <- map_app. exact Ew.
      + intros b o i j Hb Hi Hj. rewrite (Mw b o i j Hb Hi Hj). transitivity (product (l0 ++ [z]) b 0 i j).
        { rewrite (product_none K _ _ _ _ b o Hcz). reflexivity. }
        rewrite (product_none K _ _ _ _ b o Hc). apply Hpz; [exact Hb|cbn; lia|exact Hi].
  Qed.

  (** *** sizes *)
  Lemma bdim_facts B1 B2 Bc b : bdim B1 B2 = Some Bc -> b < Bc -> bidx B1 b < B1 /\ bidx B2 b < B2 /\ bidx Bc b = b /\ bdim B2 Bc = Some Bc.
  Proof.
    unfold bdim, bidx. destruct (Nat.eqb_spec B1 B2), (Nat.eqb_spec B1 1), (Nat.eqb_spec B2 1); intros E; try discriminate E; injection E as E; subst; intros Hb;
      repeat match goal with |- context [?a =? ?b] => destruct (Nat.eqb_spec a b) end; repeat split; try lia; try reflexivity.
  Qed.
  Lemma sem_all_noout F mods : outs K mods = [] -> forall ind px o o', sem_all K F mods ind px o = sem_all K F mods ind px o'.
  Proof.
    unfold outs. induction mods as [|m mods IH]; intros H ind px o o'; [reflexivity|]. cbn [filter] in H.
    destruct (is_output K m) eqn:E; [discriminate|]. cbn [sem_all]. rewrite (IH H _ _ o o'). f_equal. destruct m; try discriminate E; reflexivity.
  Qed.
  Lemma delta0_l D (f : nat -> K) : 0 < D -> bsum D (fun k => smul (if k =? 0 then s1 else s0) (f k)) = f 0.
  Proof.
    intros HD. transitivity (bsum D (fun k => if k =? 0 then f k else s0)).
    - apply bsum_ext. intros k _. destruct (k =? 0); ring.
    - apply (bsum_delta K D 0 f HD).
  Qed.
  Lemma delta0_r D (f : nat -> K) : 0 < D -> bsum D (fun k => smul (f k) (if k =? 0 then s1 else s0)) = f 0.
  Proof. intros HD. rewrite <- (delta0_l D f HD). apply bsum_ext. intros; ring. Qed.

  (** the core and the other factors *)
  Lemma stale_mods D F O t rest x B N B' : shp t = [O; D; D] -> rest <> [] -> Forall (wf_mod K D F O) rest -> Forall (not_short K) rest ->
    outs K rest = [] -> shp x = [B; N; F] ->
    exists v l, mods_forward K (OutputSite t :: rest) 0 x (Some B') = (Ok (mkA KOutputCore v "bolr" :: l), Some B) /\
      shp v = [B'; O; D; D] /\ (forall b o i j, b < B' -> o < O -> i < D -> j < D -> get v [b; o; i; j] = get t [o; i; j]) /\
      l <> [] /\ chain_typed B D l D None /\ Forall (is_mid K) l /\ Forall (fun a => exists o', typed a B D D o') l /\
      forall b i j, b < B -> i < D -> j < D -> product l b 0 i j = chain (sem_all K F rest 0 (px_of K x b) 0) i j.
  Proof.
    intros Ht Hne Hw Hs Ho Hx.
    destruct (expand_batch K t B' 1 [O; D; D] Ht ltac:(lia)) as (v & Ev & Hv & Gv).
    destruct (mods_forward_ok K D F O rest x B N Hx 0 (Some B') Hw Hs) as (l & El & Cl & Ml & Ll & Vl).
    { rewrite Ho. cbn. lia. }
    { destruct rest as [|m rest]; [contradiction|]. intros Hl. exfalso. unfold outs in Ho. cbn [filter] in Ho.
      destruct m; try discriminate Hl. discriminate Ho. }
    assert (Eo : out_of K O rest = None) by (unfold out_of; rewrite Ho; reflexivity). rewrite Eo in Cl, Vl. cbn [osize] in Vl.
    assert (El' : mods_forward K rest 0 x (Some B') = (Ok l, Some B)) by (rewrite El; destruct rest; [contradiction|reflexivity]).
    exists v, l. split; [|split; [exact Hv|split; [|split; [|split; [exact Cl|split; [|split]]]]]].
    - cbn [mods_forward mod_len Nat.eqb mod_forward]. unfold mbind at 1. unfold output_core, ndim. rewrite Ht. cbn [List.length Nat.eqb orb].
      rewrite (init_short K KOutputCore t "bolr" B' [O; D; D] (Some B') v Ht) by (try discriminate; try reflexivity; exact Ev).
      unfold mbind. cbn [Nat.add]. rewrite El'. reflexivity.
    - intros b o i j Hb Ho' Hi Hj. apply Gv; [exact Hb|repeat constructor; assumption].
    - intros ->. destruct rest; [contradiction|discriminate Ll].
    - apply Forall_forall. intros a Ha. rewrite Forall_forall in Ml. apply Ml; exact Ha.
    - apply Forall_forall. intros a Ha. rewrite Forall_forall in Ml. apply Ml; exact Ha.
    - intros b i j Hb Hi Hj. apply Vl; (assumption || lia).
  Qed.

  (** *** open boundary *)
  Lemma core_times_vec v z B' B O D g : shp v = [B'; O; D; D] -> typed z B D 1 None -> a_bond z = "bl"%string ->
    match bdim B' B with
    | None => mul K (Atom (mkA KOutputCore v "bolr")) (Atom z) g = (Err RuntimeError, g)
    | Some Bc => exists w, mul K (Atom (mkA KOutputCore v "bolr")) (Atom z) g = (Ok (Atom (mkA KBase w "bol")), Some Bc) /\ shp w = [Bc; O; D] /\
        forall b o i, o < O -> i < D -> get w [b; o; i] = bsum D (fun k => smul (get v [bidx B' b; o; i; k]) (meaning z (bidx B b) 0 k 0))
    end.
  Proof.
    intros Hv Tz Bz. inversion Tz; subst; cbn [a_bond] in Bz; try discriminate Bz. rename H into Hu.
    set (s := "bolz,bz->bol"%string).
    assert (Em : mul K (Atom (mkA KOutputCore v "bolr")) (Atom (mkA KEdgeVec t "bl")) g = 
      or_else K (mbind (lift (einsum s [v; t])) (fun w => some_atom K (wrap K w "bol"))) (rmul_method K (Atom (mkA KEdgeVec t "bl")) (Atom (mkA KOutputCore v "bolr"))) g) by reflexivity.
    destruct (bdim B' B) as [Bc|] eqn:E.
    - destruct (e_core_vec_b v t B' B Bc O D D Hv Hu E) as (w & Ew & Hw & Gw). exists w. split; [|split; [exact Hw|]].
      + rewrite Em. unfold or_else, mbind, lift, some_atom. fold s in Ew. rewrite Ew. unfold mbind, wrap. cbn [String.eqb Ascii.eqb Bool.eqb andb].
        rewrite (init_full K KBase w "bol" Bc [O; D] g Hw) by reflexivity. reflexivity.
      + intros b o i Ho Hi. rewrite Gw by assumption. reflexivity.
    - rewrite Em. unfold or_else, mbind, lift. unfold s. rewrite (e_core_vec_err v t B' B O D D Hv Hu E). reflexivity.
  Qed.
  Lemma vec_times_outvec e w B Bc O D g : shp e = [B; D] -> shp w = [Bc; O; D] -> bdim B Bc = Some Bc ->
    exists out, mul K (Atom (mkA KEdgeVec e "br")) (Atom (mkA KBase w "bol")) g = (Ok (Atom (mkA KBase out "bo")), Some Bc) /\ shp out = [Bc; O] /\
      forall b o, o < O -> get out [b; o] = bsum D (fun k => smul (get e [bidx B b; k]) (get w [bidx Bc b; o; k])).
  Proof.
    intros He Hw E. destruct (e_vec_outvec_b e w B Bc Bc O D He Hw E) as (out & Eo & Ho & Go). exists out. split; [|split; [exact Ho|exact Go]].
    transitivity (or_else K (mbind (lift (einsum "bz,boz->bo" [e; w])) (fun w => some_atom K (wrap K w "bo"))) (ret None) g); [reflexivity|].
    unfold or_else, mbind, lift, some_atom. rewrite Eo. unfold mbind, wrap. cbn [String.eqb Ascii.eqb Bool.eqb andb].
    rewrite (init_full K KBase out "bo" Bc [O] g Ho) by reflexivity. reflexivity.
  Qed.

  (** the state after the reduction of the regions *)
  Lemma red_all_state l B r c out : chain_typed (S := K) B r l c out -> forall g, g = Some B -> snd (red_all K (map Atom l) g) = Some B.
  Proof.
    assert (R : forall a r m o, typed a B r m o -> exists z, reduce K false (Atom a) (Some B) = (Ok (Atom z), Some B)).
    { intros a r' m o H. inversion H as [? ? ? E|? ? ? E|? ? ? ? E|? ? n ? E Hn|? ? ? ? ? E|? ? ? ? E|? ? ? ? E|? ? ? E|? ? E]; subst; try (eexists; reflexivity).
      destruct (region_reduce_ok K t B n m (Some B) E Hn) as (z & Ez & _). exists z. cbn [reduce a_cls]. unfold mbind. rewrite Ez. reflexivity. }
    intros H. induction H as [r|a l r m c out Ha H IH|a l r m c O Ha H IH]; intros g ->; [reflexivity| |];
      destruct (R _ _ _ _ Ha) as (z & Ez); cbn [map red_all]; unfold mbind; rewrite Ez; specialize (IH _ eq_refl);
      destruct (red_all K (map Atom l) (Some B)) as [[q|e] g']; exact IH.
  Qed.
  (** reduce of [left edge, core, mids, right edge] *)
  Lemma stale_reduce par e0 v l e1 B B' O D g : shp e0 = [B; D] -> shp v = [B'; O; D; D] -> l <> [] ->
    chain_typed B D (l ++ [e1]) 1 None -> Forall (is_mid K) l -> a_bond e1 = "bl"%string ->
    exists g0, match bdim B' B with
    | None => reduce K par (CList (map Atom (mkA KEdgeVec e0 "br" :: (mkA KOutputCore v "bolr" :: l) ++ [e1]))) g = (Err RuntimeError, g0)
    | Some Bc => exists out, reduce K par (CList (map Atom (mkA KEdgeVec e0 "br" :: (mkA KOutputCore v "bolr" :: l) ++ [e1]))) g = (Ok (Atom (mkA KBase out "bo")), Some Bc) /\
        shp out = [Bc; O] /\
        forall b o, b < Bc -> o < O -> get out [b; o] = bsum D (fun i => smul (get e0 [bidx B b; i]) (bsum D (fun k => smul (get v [bidx B' b; o; i; k]) (product (l ++ [e1]) (bidx B b) 0 k 0))))
    end /\ (g = Some B -> bdim B' B = None -> g0 = Some B).
  Proof.
    intros He0 Hv Hne Hc Hm Hb1.
    set (A0 := mkA KEdgeVec e0 "br"). set (C := mkA KOutputCore v "bolr").
    (* after the reduction of the regions *)
    assert (P : exists l' r' g1, reduce K par (CList (map Atom (A0 :: (C :: l) ++ [e1]))) g = reduce_loop K (List.length l' + 3) ([Atom A0; Atom C] ++ map Atom (l' ++ [r'])) g1 /\
      l' <> [] /\ (g = Some B -> g1 = Some B) /\ chain_typed B D (l' ++ [r']) 1 None /\ Forall (is_mid K) l' /\ a_bond r' = "bl"%string /\
      forall b i, b < B -> i < D -> product (l' ++ [r']) b 0 i 0 = product (l ++ [e1]) b 0 i 0).
    { destruct par.
      - destruct (red_all_ok K _ _ _ _ _ Hc g) as (l'' & g1 & El & Cl & Al & Pl).
        apply Forall2_app_inv_l in Al as (l' & rr & Am & Ar & ->). inversion Ar as [|? r' ? ? AR An]; subst. inversion An; subst.
        exists l', r', g1. split; [|split; [|split; [|split; [exact Cl|split; [|split]]]]].
        + rewrite reduce_par. cbn [map app]. unfold mbind at 1. cbn [red_all reduce a_cls A0 C]. unfold mbind, ret. rewrite El.
          rewrite map_app. cbn [map List.length]. rewrite !app_length, map_length. cbn [List.length].
          f_equal. lia.
        + intros ->. inversion Am; subst. contradiction.
        + intros Hg. pose proof (red_all_state (l ++ [e1]) B D 1 None Hc g Hg) as Q. rewrite El in Q. exact Q.
        + clear -Am Hm. induction Am; [constructor|]. apply Forall_inv in Hm as Hx. apply Forall_inv_tail in Hm. constructor; [eapply after_mid; eassumption|auto].
        + unfold after in AR. rewrite AR, Hb1. reflexivity.
        + intros b i Hb Hi. apply Pl; [exact Hb|cbn; lia|exact Hi].
      - exists l, e1, g. split; [|tauto]. rewrite reduce_ser. cbn [map app List.length]. rewrite map_length, app_length. cbn [List.length].
        f_equal. lia. }
    destruct P as (l' & r' & g1 & E1 & Hne' & Hg1 & Hc' & Hm' & Hr' & Hprod).
    destruct (suffix_right B (List.length l') l' D r' eq_refl Hc' Hm' Hr' [Atom A0; Atom C] 3 g1 ltac:(discriminate)) as (z & Ez & Tz & Bz & Mz).
    rewrite E1, Ez. clear E1 Ez.
    set (g2 := match l' with [] => g1 | _ => Some B end). assert (Hg2 : g = Some B -> g2 = Some B) by (intros Hg; unfold g2; destruct l'; auto).
    pose proof (core_times_vec v z B' B O D g2 Hv Tz Bz) as HC. fold C in HC.
    change ([Atom A0; Atom C] ++ [Atom z]) with ([Atom A0] ++ [Atom C; Atom z]).
    rewrite (loop_step [Atom A0] C z 2 g2 ltac:(discriminate)). exists g2. split; [|auto].
    destruct (bdim B' B) as [Bc|] eqn:E.
    - destruct HC as (w & Ew & Hw & Gw).
      assert (Ebc : bdim B Bc = Some Bc).
      { unfold bdim in E |- *. destruct (Nat.eqb_spec B' B), (Nat.eqb_spec B' 1), (Nat.eqb_spec B 1); try discriminate E; injection E as E; subst;
          repeat match goal with |- context [?a =? ?b] => destruct (Nat.eqb_spec a b) end; try lia; try reflexivity. }
      destruct (vec_times_outvec e0 w B Bc O D (Some Bc) He0 Hw Ebc) as (out & Eo & Ho & Go). fold A0 in Eo.
      exists out. split; [|split; [exact Ho|]].
      + unfold mbind at 1, try_type. rewrite mul_last_app. unfold mbind at 1. rewrite Ew. cbn [ret app].
        cbn [reduce_loop]. unfold mbind at 1, try_type, mul_last. cbn [rev app]. unfold mbind. rewrite Eo. reflexivity.
      + intros b o Hb Ho'. destruct (bdim_facts B' B Bc b E Hb) as (Hb1' & Hb2 & Hb3 & _).
        rewrite Go by exact Ho'. rewrite Hb3. apply bsum_ext. intros i Hi. f_equal. rewrite Gw by assumption.
        apply bsum_ext. intros k Hk. f_equal. rewrite Mz by (assumption || lia). apply Hprod; assumption.
    - unfold mbind at 1, try_type. rewrite mul_last_app. unfold mbind at 1. rewrite HC. reflexivity.
  Qed.

  Lemma ready_mods D F O t rest : shp t = [O; D; D] -> Forall (wf_mod K D F O) rest -> Forall (not_short K) rest -> outs K rest = [] ->
    good_mods K D F O (OutputSite t :: rest).
  Proof.
    intros Ht Hw Hs Ho. split; [constructor; [exact Ht|exact Hw]|]. split; [constructor; [exact Logic.I|exact Hs]|].
    unfold outs in *. cbn [filter is_output]. rewrite Ho. reflexivity.
  Qed.
  Lemma sem_cons F t rest px o D O : shp t = [O; D; D] -> outs K rest = [] ->
    sem_all K F (OutputSite t :: rest) 0 px o = (D, fun l r => get t [o; l; r]) :: sem_all K F rest 0 px 0.
  Proof.
    intros Ht Ho. cbn [sem_all sem mod_len Nat.add app]. unfold size. rewrite Ht. cbn [nth]. f_equal. apply sem_all_noout. exact Ho.
  Qed.
  Theorem stale_open D F O t rest par x B B' : shp t = [O; D; D] -> rest <> [] -> Forall (wf_mod K D F O) rest -> Forall (not_short K) rest ->
    outs K rest = [] -> 0 < D -> shp x = [B; region_len K (OutputSite t :: rest); F] ->
    match bdim B' B with
    | None => region_forward K (OutputSite t :: rest) false par x (Some B') = (Err RuntimeError, Some B)
    | Some Bc => exists out, region_forward K (OutputSite t :: rest) false par x (Some B') = (Ok out, Some Bc) /\ shp out = [Bc; O] /\
        forall b o, b < Bc -> o < O -> get out [b; o] = chain (sem_all K F (OutputSite t :: rest) 0 (px_of K x (bidx B b)) o) 0 0
    end.
  Proof.
    intros Ht Hne Hw Hs Ho HD Hx.
    destruct (stale_mods D F O t rest x B _ B' Ht Hne Hw Hs Ho Hx) as (v & l & El & Hv & Gv & Hnl & Cl & Ml & Tl & Vl).
    set (A := mkA KOutputCore v "bolr") in *.
    destruct (exists_last Hnl) as (l1 & a1 & E1).
    assert (F1 : is_mid K a1) by (rewrite E1 in Ml; apply Forall_app in Ml as [_ Ml]; apply (Forall_inv Ml)).
    assert (F2 : exists o', typed a1 B D D o') by (rewrite E1 in Tl; apply Forall_app in Tl as [_ Tl]; apply (Forall_inv Tl)). destruct F2 as (o1 & T1).
    set (u := mkT [D] (fun i => if nth 0 i 0 =? 0 then s1 else s0) : T).
    destruct (edge_vec_short K u B D true eq_refl) as (e0 & Ee0 & He0 & Ge0).
    destruct (edge_vec_short K u B D false eq_refl) as (e1 & Ee1 & He1 & Ge1).
    set (A1 := mkA KEdgeVec e1 "bl") in *.
    assert (C1 : chain_typed B D (l ++ [A1]) 1 None).
    { eapply chain_snoc; [exact Cl|]. constructor; exact He1. }
    destruct (stale_reduce par e0 v l A1 B B' O D (Some B) He0 Hv Hnl C1 Ml eq_refl) as (g0 & HR & HG). fold A in HR.
    assert (P : region_forward K (OutputSite t :: rest) false par x (Some B') =
      mbind (reduce K par (CList (map Atom (mkA KEdgeVec e0 "br" :: (A :: l) ++ [A1])))) (fun z => match z with Atom a => ret (a_ten a) | _ => raise AttributeError end) (Some B)).
    { unfold region_forward. unfold mbind at 1 2 3, lift at 1 2, ndim, size. rewrite Hx. cbn [List.length Nat.eqb nth assert_]. rewrite Nat.eqb_refl. cbn [assert_].
      remember (A :: l) as L eqn:EL. rewrite El.
      rewrite (ends_match L A l (A :: l1) a1 _ _ EL ltac:(rewrite EL, E1; reflexivity)).
      unfold mbind at 1 2 3 4 5, lift. rewrite (end_left K A B' D (Some O)) by first [constructor; exact Hv|unfold is_mid; cbn; auto|exact HD].
      rewrite (end_right K a1 B D o1 T1 F1 HD). fold u. rewrite Ee0, Ee1. fold A1. rewrite contractable_atoms. reflexivity. }
    rewrite P. unfold mbind. clear P. destruct (bdim B' B) as [Bc|] eqn:E.
    - destruct HR as (out & Er & Hout & Go). exists out. split; [|split; [exact Hout|]].
      + rewrite Er. reflexivity.
      + intros b o Hb Ho'. destruct (bdim_facts B' B Bc b E Hb) as (Hb1 & Hb2 & _ & _).
        rewrite Go by assumption. transitivity (bsum D (fun i => smul (if i =? 0 then s1 else s0) (bsum D (fun k => smul (get t [o; i; k]) (product (l ++ [A1]) (bidx B b) 0 k 0))))).
        { apply bsum_ext. intros i Hi. rewrite Ge0 by assumption. cbn [get u nth]. f_equal. apply bsum_ext. intros k Hk. rewrite Gv by assumption. reflexivity. }
        rewrite delta0_l by exact HD. rewrite (sem_cons F t rest _ o D O Ht Ho), chain_cons. unfold mmul. apply bsum_ext. intros k Hk. f_equal.
        rewrite (product_app K l [A1] _ 0 k 0 B D D None Cl Hk). unfold mmul.
        transitivity (bsum D (fun j => smul (product l (bidx B b) 0 k j) (if j =? 0 then s1 else s0))).
        { apply bsum_ext. intros j Hj. f_equal. rewrite (product_one K) by (cbn; lia). change (meaning A1 (bidx B b) 0 j 0) with (get e1 [bidx B b; j]). rewrite Ge1 by assumption. reflexivity. }
        rewrite delta0_r by exact HD. apply Vl; assumption.
    - rewrite HR. rewrite (HG eq_refl eq_refl). reflexivity.
  Qed.

  (** *** periodic boundary *)
  Lemma core_times_mat v z B' B O D g : shp v = [B'; O; D; D] -> typed z B D D None -> a_bond z = "blr"%string ->
    match bdim B' B with
    | None => mul K (Atom (mkA KOutputCore v "bolr")) (Atom z) g = (Err RuntimeError, g)
    | Some Bc => exists w, mul K (Atom (mkA KOutputCore v "bolr")) (Atom z) g = (Ok (Atom (mkA KOutputCore w "bolr")), Some Bc) /\ shp w = [Bc; O; D; D] /\
        forall b o i j, o < O -> i < D -> j < D -> get w [b; o; i; j] = bsum D (fun k => smul (get v [bidx B' b; o; i; k]) (meaning z (bidx B b) 0 k j))
    end.
  Proof.
    intros Hv Tz Bz. inversion Tz; subst; cbn [a_bond] in Bz; try discriminate Bz. rename H into Hu.
    set (s := "bolz,bzr->bolr"%string).
    assert (Em : exists r, mul K (Atom (mkA KOutputCore v "bolr")) (Atom (mkA KSingleMat t "blr")) g = 
      or_else K (mbind (lift (einsum s [v; t])) (fun w => some_atom K (wrap K w "bolr"))) r g) by (eexists; reflexivity).
    destruct Em as (rr & Em).
    destruct (bdim B' B) as [Bc|] eqn:E.
    - destruct (e_core_mat_b v t B' B Bc O D D D Hv Hu E) as (w & Ew & Hw & Gw). exists w. split; [|split; [exact Hw|]].
      + rewrite Em. unfold or_else, mbind, lift, some_atom. fold s in Ew. rewrite Ew. unfold mbind, wrap. cbn [String.eqb Ascii.eqb Bool.eqb andb].
        unfold output_core, ndim. rewrite Hw. cbn [List.length Nat.eqb orb]. rewrite (init_full K KOutputCore w "bolr" Bc [O; D; D] g Hw) by reflexivity. reflexivity.
      + intros b o i j Ho Hi Hj. rewrite Gw by assumption. reflexivity.
    - rewrite Em. unfold or_else, mbind, lift. unfold s. rewrite (e_core_mat_err v t B' B O D D D Hv Hu E). reflexivity.
  Qed.

  Theorem stale_ring D F O t rest par x B B' : shp t = [O; D; D] -> rest <> [] -> Forall (wf_mod K D F O) rest -> Forall (not_short K) rest ->
    outs K rest = [] -> shp x = [B; region_len K (OutputSite t :: rest); F] ->
    match bdim B' B with
    | None => region_forward K (OutputSite t :: rest) true par x (Some B') = (Err RuntimeError, Some B)
    | Some Bc => exists out, region_forward K (OutputSite t :: rest) true par x (Some B') = (Ok out, Some Bc) /\ shp out = [Bc; O] /\
        forall b o, b < Bc -> o < O -> get out [b; o] = mtrace D (chain (sem_all K F (OutputSite t :: rest) 0 (px_of K x (bidx B b)) o))
    end.
  Proof.
    intros Ht Hne Hw Hs Ho Hx.
    destruct (stale_mods D F O t rest x B _ B' Ht Hne Hw Hs Ho Hx) as (v & l & El & Hv & Gv & Hnl & Cl & Ml & Tl & Vl).
    set (A := mkA KOutputCore v "bolr") in *.
    assert (P : region_forward K (OutputSite t :: rest) true par x (Some B') =
      mbind (reduce K true (CList (map Atom (A :: l)))) (fun z => lift (trace_lr K z)) (Some B)).
    { unfold region_forward. unfold mbind at 1 2 3, lift at 1 2, ndim, size. rewrite Hx. cbn [List.length Nat.eqb nth assert_]. rewrite Nat.eqb_refl. cbn [assert_].
      rewrite El. unfold mbind at 1, lift at 1. rewrite contractable_atoms. reflexivity. }
    rewrite P. clear P.
    destruct (red_all_ok K _ _ _ _ _ Cl (Some B)) as (l' & g1 & Er & Cl' & Al & Pl).
    assert (g1 = Some B) as -> by (pose proof (red_all_state l B D D None Cl (Some B) eq_refl) as Q; rewrite Er in Q; exact Q).
    assert (Forall (is_mid K) l' /\ Forall (noregion K) l') as [Hm' Hr'].
    { clear -Al Ml. induction Al; [split; constructor|]. apply Forall_inv in Ml as Hx. apply Forall_inv_tail in Ml.
      destruct (IHAl Ml). destruct (after_mid _ _ _ H Hx). split; constructor; assumption. }
    assert (Hl' : exists n, List.length l' = Datatypes.S n) by (destruct Al; [contradiction|eexists; reflexivity]). destruct Hl' as (n & Hn).
    destruct (suffix_mid B D n l' D Hn Cl' Hm' Hr' [Atom A] 2 (Some B) ltac:(discriminate)) as (z & g' & Ez & Hg' & Tz & Bz & Mz).
    specialize (Hg' eq_refl). subst g'.
    assert (Q : reduce K true (CList (map Atom (A :: l))) (Some B) = reduce_loop K 2 [Atom A; Atom z] (Some B)).
    { rewrite reduce_par. cbn [map red_all]. unfold mbind at 1 2. cbn [reduce a_cls A]. unfold ret at 1. unfold mbind at 1. fold A. rewrite Er.
      unfold ret at 1. cbn [List.length]. rewrite map_length, Hn. replace (Datatypes.S (Datatypes.S n)) with (n + 2) by lia.
      change (Atom A :: map Atom l') with ([Atom A] ++ map Atom l'). rewrite Ez. reflexivity. }
    pose proof (core_times_mat v z B' B O D (Some B) Hv Tz Bz) as HC. fold A in HC.
    destruct (bdim B' B) as [Bc|] eqn:E.
    - destruct HC as (w & Ew & Sw & Gw). 
      destruct (e_trace K w Bc O D Sw) as (u & Eu & Hu & Gu). exists u. split; [|split; [exact Hu|]].
      + unfold mbind at 1. rewrite Q, reduce_loop_step. unfold mbind at 1, try_type, mul_last. cbn [rev app]. unfold mbind at 1. rewrite Ew. cbn [ret rev app reduce_loop]. unfold ret, lift, trace_lr. cbn [a_bond chars list_ascii_of_string a_ten].
        cbn [inb existsb Ascii.eqb Bool.eqb orb andb assert_ rbind].
        match goal with |- context [einsum ?st _] => change st with "boll->bo"%string end. rewrite Eu. reflexivity.
      + intros b o Hb Ho'. destruct (bdim_facts B' B Bc b E Hb) as (Hb1 & Hb2 & _ & _).
        rewrite Gu by assumption. unfold mtrace. apply bsum_ext. intros i Hi. rewrite Gw by assumption.
        rewrite (sem_cons F t rest _ o D O Ht Ho), chain_cons. unfold mmul. apply bsum_ext. intros k Hk. rewrite Gv by assumption. f_equal.
        rewrite Mz by assumption. rewrite Pl by (cbn; lia || assumption). apply Vl; assumption.
    - unfold mbind at 1. rewrite Q, reduce_loop_step. unfold mbind at 1, try_type, mul_last. cbn [rev app]. unfold mbind at 1. rewrite HC. reflexivity.
  Qed.

  (** *** a model with no input site at all: the output core alone *)
  Theorem alone_open D F O t par x B B' : shp t = [O; D; D] -> 0 < D -> shp x = [B; 0; F] ->
    exists out, region_forward K [OutputSite t] false par x (Some B') = (Ok out, Some B') /\ shp out = [B'; O] /\
      forall b o, b < B' -> o < O -> get out [b; o] = get t [o; 0; 0].
  Proof.
    intros Ht HD Hx.
    destruct (region_open K D F O [OutputSite t] par (tconst [B'; 0; F] s0) B' (Some B')) as (out & Eo & Ho & Go).
    { apply ready_mods; try constructor; assumption. } { exact HD. } { reflexivity. } { intros _. reflexivity. }
    exists out. split; [|split; [exact Ho|]].
    - rewrite <- Eo. unfold region_forward, ndim, size. rewrite Hx. reflexivity.
    - intros b o Hb Ho'. rewrite Go by assumption. rewrite (sem_cons F t [] _ o D O Ht eq_refl). cbn [sem_all].
      rewrite chain_cons. unfold mmul. rewrite <- (delta0_r D (fun k => get t [o; 0; k]) HD) at 1. apply bsum_ext. intros k Hk. f_equal.
  Qed.
  Theorem alone_ring D F O t par x B B' : shp t = [O; D; D] -> shp x = [B; 0; F] ->
    exists out, region_forward K [OutputSite t] true par x (Some B') = (Ok out, Some B') /\ shp out = [B'; O] /\
      forall b o, b < B' -> o < O -> get out [b; o] = mtrace D (fun l r => get t [o; l; r]).
  Proof.
    intros Ht Hx. destruct (expand_batch K t B' 1 [O; D; D] Ht ltac:(lia)) as (v & Ev & Hv & Gv).
    destruct (e_trace K v B' O D Hv) as (u & Eu & Hu & Gu). exists u. split; [|split; [exact Hu|]].
    - unfold region_forward, mbind, lift, ndim, size. rewrite Hx. cbn [List.length Nat.eqb nth assert_ region_len fold_right mod_len Nat.add].
      cbn [mods_forward mod_len Nat.eqb mod_forward]. unfold mbind. unfold output_core, ndim. rewrite Ht. cbn [List.length Nat.eqb orb].
      rewrite (init_short K KOutputCore t "bolr" B' [O; D; D] (Some B') v Ht) by (try discriminate; try reflexivity; exact Ev).
      cbn [ret]. rewrite contractable_atoms. cbn [map reduce a_cls]. unfold mbind, ret. cbn [List.length reduce_loop]. unfold ret.
      unfold trace_lr. cbn [a_bond chars list_ascii_of_string a_ten].
      cbn [inb existsb Ascii.eqb Bool.eqb orb andb assert_ rbind].
      match goal with |- context [einsum ?st _] => change st with "boll->bo"%string end. rewrite Eu. reflexivity.
    - intros b o Hb Ho'. rewrite Gu by assumption. unfold mtrace. apply bsum_ext. intros k Hk. apply Gv; [assumption|repeat constructor; assumption].
  Qed.
End P.
