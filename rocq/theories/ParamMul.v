(** * ParamMul: products of contractables in two arithmetics *)
From Verif Require Import Base Scalars Tensor Contractables Utils TorchMps SvdProofs Param EinStr.

Lemma length_chars s : String.length s = List.length (chars s).
Proof. unfold chars. induction s as [|c s IH]; cbn; [reflexivity|]. rewrite IH. reflexivity. Qed.
Lemma combine_nil_r {A B} (l : list A) : combine l (@nil B) = [].
Proof. destruct l; reflexivity. Qed.

Section ParamMul.
  Variables (S1 S2 : sops) (G : graded S1 S2) (D : nat).
  Notation E := (gE G).
  Notation trel := (trel G).

  (** what is known of every contractable: its bond string starts with b and names its axes; bonds have size <= D *)
  Record wf (c : kls) (bond : string) (sh : list nat) : Prop := mkWf {
    wf_b : exists r, chars bond = "b"%char :: r;
    wf_plain : plain (chars bond);
    wf_len : List.length (chars bond) = List.length sh;
    wf_D : sh_all (lr_le D) (chars bond) sh;
    wf_region : c = KMatRegion -> bond = "bslr"%string /\ dimE 1 sh = dimE 0 sh;
    wf_edge : c = KEdgeVec -> bond = "br"%string \/ bond = "bl"%string }.
  Definition arel (k : nat) (a : atom S1) (a' : atom S2) : Prop :=
    a_cls a = a_cls a' /\ a_bond a = a_bond a' /\ trel k (a_ten a) (a_ten a') /\ wf (a_cls a) (a_bond a) (shp (a_ten a)).
  (** the number of matrices that a contractable still consists of *)
  Definition weight (a : atom S1) : nat := match a_cls a with KMatRegion => Nat.max 1 (nth 1 (shp (a_ten a)) 0) | _ => 1 end.
  (** cost c: grades of the matrices, plus 1+D for every matrix *)
  Definition crel (c : nat) (a : atom S1) (a' : atom S2) : Prop := exists k, weight a * (k + 1 + D) <= c /\ arel k a a'.

  Lemma weight_pos a : 1 <= weight a.
  Proof. unfold weight. destruct (a_cls a); lia. Qed.
  Lemma arel_mono k k' a a' : k <= k' -> arel k a a' -> arel k' a a'.
  Proof. intros H (A & B & C & W). split; [exact A|]. split; [exact B|]. split; [|exact W]. eapply trel_mono; eassumption. Qed.
  Lemma crel_level c a a' : crel c a a' -> exists k, k + 1 + D <= c /\ arel k a a'.
  Proof. intros (k & H & A). exists k. split; [|exact A]. pose proof (weight_pos a). nia. Qed.
  Lemma crel_one c k a a' : a_cls a <> KMatRegion -> k + 1 + D <= c -> arel k a a' -> crel c a a'.
  Proof. intros N H A. exists k. split; [|exact A]. unfold weight. destruct (a_cls a); try lia. contradiction. Qed.

  (** ** tensor operations that only move entries *)
  Lemma trel_shp k t t' : trel k t t' -> shp t = shp t'.
  Proof. intros [H _]. exact H. Qed.
  Lemma exp_ok_len r : forall t, exp_ok_rev r t = true -> List.length r <= List.length t.
  Proof. induction r as [|d r IH]; intros [|e t] H; cbn in *; try discriminate H; [lia|lia|]. apply andb_true_iff in H as [_ H]. apply IH in H. lia. Qed.
  Lemma bproj_length sh i : List.length sh <= List.length i -> List.length (bproj sh i) = List.length sh.
  Proof.
    intros H. unfold bproj. pose proof (lastn_length (List.length sh) i H) as L. revert L. generalize (lastn (List.length sh) i) as j. clear.
    induction sh as [|d sh IH]; intros [|x j] L; cbn in *; try discriminate L; [reflexivity|]. rewrite IH by congruence. reflexivity.
  Qed.
  Lemma trel_expand k t t' sh : trel k t t' -> rrel (fun u u' => trel k u u' /\ shp u = sh) (expand t sh) (expand t' sh).
  Proof.
    intros [Hs Hg]. unfold expand. rewrite <- Hs. destruct (exp_ok_rev _ _) eqn:Ee; [|reflexivity]. cbn [rrel]. split; [|reflexivity].
    split; [reflexivity|]. intros i Hi. cbn [get shp] in *. apply Hg. apply bproj_length. apply exp_ok_len in Ee. rewrite !rev_length in Ee. lia.
  Qed.
  Lemma trel_unsq_front k n t t' : trel k t t' -> trel k (unsq_front n t) (unsq_front n t').
  Proof.
    intros [Hs Hg]. split; cbn [unsq_front shp get]; [rewrite Hs; reflexivity|]. intros i Hi. apply Hg.
    rewrite app_length, repeat_length in Hi. rewrite skipn_length. lia.
  Qed.
  Lemma trel_unsqE k n t t' : n <= ndim t -> trel k t t' -> trel k (unsqE n t) (unsqE n t').
  Proof.
    intros Hn [Hs Hg]. split; cbn [unsqE shp get]; [rewrite Hs; reflexivity|]. intros i Hi. apply Hg. unfold ndim in Hn.
    rewrite !app_length in Hi. cbn [List.length] in Hi. rewrite droplast_length, lastn_length in Hi by exact Hn.
    rewrite app_length, droplast_length, lastn_length by lia. lia.
  Qed.
  Lemma trel_squeezeE k n t t' : n < ndim t -> trel k t t' -> trel k (squeezeE n t) (squeezeE n t').
  Proof.
    intros Hn [Hs Hg]. unfold squeezeE. rewrite <- Hs. destruct (_ =? 1); [|split; [exact Hs|exact Hg]]. unfold ndim in Hn.
    split; cbn [shp get]; [reflexivity|]. intros i Hi. apply Hg. rewrite app_length, droplast_length, lastn_length in Hi by lia.
    rewrite !app_length, droplast_length, lastn_length by lia. cbn [List.length]. lia.
  Qed.
  Lemma trel_selE k n p t t' : n < ndim t -> trel k t t' -> trel k (selE n t p) (selE n t' p).
  Proof.
    intros Hn [Hs Hg]. split; cbn [selE shp get]; [rewrite Hs; reflexivity|]. intros i Hi. apply Hg. unfold ndim in Hn.
    rewrite app_length, droplast_length, lastn_length in Hi by lia. rewrite !app_length, droplast_length, lastn_length by lia. cbn [List.length]. lia.
  Qed.
  Lemma trel_sliceE k n p f t t' : n < ndim t -> trel k t t' -> trel k (sliceE n p f t) (sliceE n p f t').
  Proof.
    intros Hn [Hs Hg]. split; cbn [sliceE shp get]; [rewrite Hs; reflexivity|]. intros i Hi. apply Hg. unfold ndim in Hn.
    rewrite !app_length, droplast_length, lastn_length in Hi by lia. cbn [List.length] in Hi.
    rewrite !app_length, droplast_length, lastn_length by lia. cbn [List.length]. lia.
  Qed.

  (** ** the constructors *)
  Definition class_ok (c : kls) (bond : string) (sh : list nat) : Prop :=
    (c = KMatRegion -> bond = "bslr"%string /\ dimE 1 sh = dimE 0 sh) /\ (c = KEdgeVec -> bond = "br"%string \/ bond = "bl"%string).
  Lemma init_rel c k t t' bond r : trel k t t' -> chars bond = "b"%char :: r -> plain (chars bond) -> class_ok c bond (shp t) ->
    (List.length (chars bond) = List.length (shp t) -> sh_all (lr_le D) (chars bond) (shp t)) ->
    (List.length r = List.length (shp t) -> sh_all (lr_le D) r (shp t)) ->
    mrel (fun a a' => arel k a a' /\ a_cls a = c) (init S1 c t bond) (init S2 c t' bond).
  Proof.
    intros Ht Hb Hp [Hc1 Hc2] H0 H1 g. unfold init, ndim. pose proof (trel_shp _ _ _ Ht) as Hs. rewrite <- Hs.
    destruct (shp t) as [|b sh] eqn:Es; [split; reflexivity|]. rewrite Hb. rewrite length_chars.
    change (inb "b"%char ("b"%char :: r)) with true. change (Ascii.eqb "b"%char "b"%char) with true. cbn [negb andb orb]. cbv zeta.
    destruct (Nat.eqb_spec (List.length (chars bond)) (List.length (b :: sh) + 1)) as [Hl|Hl].
    - destruct g as [gb|]; [|split; reflexivity].
      pose proof (trel_expand k _ _ (gb :: b :: sh) (trel_unsq_front k 1 _ _ Ht)) as X.
      destruct (expand (unsq_front 1 t) _) as [u|e], (expand (unsq_front 1 t') _) as [u'|e']; cbn [rrel] in X; try contradiction; [|subst; split; reflexivity].
      destruct X as [X Xs]. split; [|reflexivity]. cbn [fst rrel]. split; [|reflexivity]. split; [reflexivity|]. split; [reflexivity|]. split; [exact X|].
      cbn [a_cls a_bond a_ten]. rewrite Xs. constructor; try assumption; [exists r; exact Hb|cbn [List.length] in *; lia| |].
      2:{ intros Q. destruct (Hc1 Q) as [-> Q']. split; [reflexivity|]. cbn in Hl. destruct sh as [|e1 [|e2 [|]]]; cbn in Hl; try lia. exact Q'. }
      rewrite Hb. intros x d [[= <- <-]|I]; [intros [Q|Q]; discriminate Q|]. revert x d I. apply H1. rewrite Hb in Hl. cbn [List.length] in *. lia.
    - destruct (Nat.eqb_spec (List.length (chars bond)) (List.length (b :: sh))) as [Hl'|]; cbn [negb]; [|split; reflexivity].
      split; [|reflexivity]. cbn [fst rrel]. split; [|reflexivity]. split; [reflexivity|]. split; [reflexivity|]. split; [exact Ht|].
      cbn [a_cls a_bond a_ten]. rewrite Es. constructor; try assumption; [exists r; exact Hb|]. apply H0, Hl'.
  Qed.
  Ltac shall := let c := fresh in let d := fresh in let I := fresh in let Q := fresh in intros c d I; cbn in I; repeat (destruct I as [I|I]; [injection I as <- <-; intros [Q|Q]; first [discriminate Q|assumption|lia]|]); destruct I.
  Lemma mat_region_rel k t t' : trel k t t' -> ((ndim t = 3 \/ ndim t = 4) -> dimE 1 (shp t) <= D /\ dimE 0 (shp t) <= D) ->
    mrel (fun a a' => arel k a a' /\ a_cls a = KMatRegion) (mat_region S1 t) (mat_region S2 t').
  Proof.
    intros Ht Hd. unfold mat_region, ndim. rewrite <- (trel_shp _ _ _ Ht). unfold ndim in Hd.
    destruct (Nat.eqb_spec (dimE 1 (shp t)) (dimE 0 (shp t))) as [Esq|]; [|rewrite andb_false_r; intros g; split; reflexivity].
    destruct ((List.length (shp t) =? 3) || (List.length (shp t) =? 4)); cbn [andb]; [|intros g; split; reflexivity].
    eapply init_rel; [exact Ht|reflexivity|reflexivity|split; [auto|discriminate]| |]; intros Hl; cbn in Hl;
      destruct (shp t) as [|a [|b [|c [|d [|]]]]]; try discriminate Hl; cbn in Hd; destruct Hd as [H1 H2]; auto; shall.
  Qed.
  Lemma output_core_rel k t t' : trel k t t' -> ((ndim t = 3 \/ ndim t = 4) -> dimE 1 (shp t) <= D /\ dimE 0 (shp t) <= D) ->
    mrel (fun a a' => arel k a a' /\ a_cls a = KOutputCore) (output_core S1 t) (output_core S2 t').
  Proof.
    intros Ht Hd. unfold output_core, ndim. rewrite <- (trel_shp _ _ _ Ht). unfold ndim in Hd.
    destruct ((List.length (shp t) =? 3) || (List.length (shp t) =? 4)); [|intros g; split; reflexivity].
    eapply init_rel; [exact Ht|reflexivity|reflexivity|split; discriminate| |]; intros Hl; cbn in Hl;
      destruct (shp t) as [|a [|b [|c [|d [|]]]]]; try discriminate Hl; cbn in Hd; destruct Hd as [H1 H2]; auto; shall.
  Qed.
  Lemma single_mat_rel k t t' : trel k t t' -> ((ndim t = 2 \/ ndim t = 3) -> dimE 1 (shp t) <= D /\ dimE 0 (shp t) <= D) ->
    mrel (fun a a' => arel k a a' /\ a_cls a = KSingleMat) (single_mat S1 t) (single_mat S2 t').
  Proof.
    intros Ht Hd. unfold single_mat, ndim. rewrite <- (trel_shp _ _ _ Ht). unfold ndim in Hd.
    destruct ((List.length (shp t) =? 2) || (List.length (shp t) =? 3)); [|intros g; split; reflexivity].
    eapply init_rel; [exact Ht|reflexivity|reflexivity|split; discriminate| |]; intros Hl; cbn in Hl;
      destruct (shp t) as [|a [|b [|c [|d [|]]]]]; try discriminate Hl; cbn in Hd; destruct Hd as [H1 H2]; auto; shall.
  Qed.
  Lemma output_mat_rel k t t' l : trel k t t' -> ((ndim t = 2 \/ ndim t = 3) -> dimE 1 (shp t) <= D) ->
    mrel (fun a a' => arel k a a' /\ a_cls a = KOutputMat) (output_mat S1 t l) (output_mat S2 t' l).
  Proof.
    intros Ht Hd. unfold output_mat, ndim. rewrite <- (trel_shp _ _ _ Ht). unfold ndim in Hd.
    destruct ((List.length (shp t) =? 2) || (List.length (shp t) =? 3)); [|intros g; split; reflexivity].
    destruct l; (eapply init_rel; [exact Ht|reflexivity|reflexivity|split; discriminate| |]); intros Hl; cbn in Hl;
      destruct (shp t) as [|a [|b [|c [|d [|]]]]]; try discriminate Hl; cbn in Hd; specialize (Hd ltac:(auto)); shall.
  Qed.
  Lemma edge_vec_rel k t t' l : trel k t t' -> ((ndim t = 1 \/ ndim t = 2) -> dimE 0 (shp t) <= D) ->
    mrel (fun a a' => arel k a a' /\ a_cls a = KEdgeVec) (edge_vec S1 t l) (edge_vec S2 t' l).
  Proof.
    intros Ht Hd. unfold edge_vec, ndim. rewrite <- (trel_shp _ _ _ Ht). unfold ndim in Hd.
    destruct ((List.length (shp t) =? 1) || (List.length (shp t) =? 2)); [|intros g; split; reflexivity].
    destruct l; (eapply init_rel; [exact Ht|reflexivity|reflexivity|split; [discriminate|auto]| |]); intros Hl; cbn in Hl;
      destruct (shp t) as [|a [|b [|c [|d [|]]]]]; try discriminate Hl; cbn in Hd; specialize (Hd ltac:(auto)); shall.
  Qed.
  Lemma scalar_rel k t t' : trel k t t' -> mrel (fun a a' => arel k a a' /\ a_cls a = KScalar) (scalar S1 t) (scalar S2 t').
  Proof.
    intros Ht. unfold scalar, ndim. rewrite <- (trel_shp _ _ _ Ht). destruct (List.length (shp t) =? 1); [|intros g; split; reflexivity].
    eapply init_rel; [exact Ht|reflexivity|reflexivity|split; discriminate| |]; intros Hl; cbn in Hl;
      destruct (shp t) as [|a [|b [|c [|d [|]]]]]; try discriminate Hl; shall.
  Qed.

  (** ** Contractable.__mul__ *)
  Definition orel (Q : atom S1 -> atom S2 -> Prop) (o : option (contr S1)) (o' : option (contr S2)) : Prop :=
    match o, o' with
    | Some (Atom a), Some (Atom a') => Q a a'
    | None, None => True
    | _, _ => False
    end.
  Lemma some_atom_rel (Q Q' : atom S1 -> atom S2 -> Prop) m m' : (forall a a', Q a a' -> Q' a a') -> mrel Q m m' -> mrel (orel Q') (some_atom S1 m) (some_atom S2 m').
  Proof. intros H Hm. unfold some_atom. eapply mrel_bind; [exact Hm|]. intros a a' Ha. apply mrel_ret. apply H, Ha. Qed.
  Lemma wrap_rel k t t' out r : trel k t t' -> chars out = "b"%char :: r -> plain (chars out) -> List.length (chars out) = List.length (shp t) ->
    sh_all (lr_le D) (chars out) (shp t) ->
    mrel (fun a a' => arel k a a' /\ a_cls a <> KMatRegion /\ a_cls a <> KScalar) (wrap S1 t out) (wrap S2 t' out).
  Proof.
    intros Ht Hb Hp Hl Hs. unfold wrap.
    assert (Q : forall c m m', c <> KMatRegion -> c <> KScalar -> mrel (fun a a' => arel k a a' /\ a_cls a = c) m m' ->
                mrel (fun a a' => arel k a a' /\ a_cls a <> KMatRegion /\ a_cls a <> KScalar) m m').
    { intros c m m' N1 N2. apply mrel_impl. intros a b [X Y]. rewrite Y. auto. }
    destruct (String.eqb_spec out "br") as [->|]; [eapply Q; [| |eapply edge_vec_rel]; try discriminate; try exact Ht|
    destruct (String.eqb_spec out "bl") as [->|]; [eapply Q; [| |eapply edge_vec_rel]; try discriminate; try exact Ht|
    destruct (String.eqb_spec out "blr") as [->|]; [eapply Q; [| |eapply single_mat_rel]; try discriminate; try exact Ht|
    destruct (String.eqb_spec out "bolr") as [->|]; [eapply Q; [| |eapply output_core_rel]; try discriminate; try exact Ht|]]]].
    - intros _. cbn in Hl. destruct (shp t) as [|a [|b [|]]]; try discriminate Hl. apply (Hs "r"%char); cbn; auto.
    - intros _. cbn in Hl. destruct (shp t) as [|a [|b [|]]]; try discriminate Hl. apply (Hs "l"%char); cbn; auto.
    - intros _. cbn in Hl. destruct (shp t) as [|a [|b [|c [|]]]]; try discriminate Hl. split; [apply (Hs "l"%char)|apply (Hs "r"%char)]; cbn; auto.
    - intros _. cbn in Hl. destruct (shp t) as [|a [|b [|c [|d [|]]]]]; try discriminate Hl. split; [apply (Hs "l"%char)|apply (Hs "r"%char)]; cbn; auto.
    - eapply (Q KBase); try discriminate. eapply init_rel; [exact Ht|exact Hb|exact Hp|split; discriminate|intros _; exact Hs|].
      intros Hl'. rewrite Hb in Hl. cbn in Hl. lia.
  Qed.
  Lemma not_in_out_csum dims out sc W (P : ascii -> nat -> Prop) : NoDup (map fst dims) -> env_all P dims ->
    (forall c, In c (map fst dims) -> ~ In c out -> c = sc) -> (forall d, P sc d -> d <= W) ->
    csum (filter (fun p => negb (inlabels (fst p) out)) dims) <= W.
  Proof.
    intros Hn Hp Hc HW. apply (csum_one _ sc); [apply NoDup_filter_keys, Hn|]. intros a d I. apply filter_In in I as [I No]. cbn [fst] in No.
    apply negb_true_iff in No. assert (No' : ~ In a out) by (rewrite <- inlabels_spec; congruence).
    assert (Ea : a = sc) by (apply Hc; [exact (in_map fst _ _ I)|exact No']). subst a. split; [reflexivity|]. apply HW, Hp, I.
  Qed.
  Lemma base_mul_rel rmul k k' self self' o o' : arel k self self' -> arel k' o o' ->
    mrel (orel (fun a a' => arel (S (k + k') + D) a a' /\ a_cls a <> KMatRegion /\ a_cls a <> KScalar)) (base_mul S1 rmul self (Atom o)) (base_mul S2 rmul self' (Atom o')).
  Proof.
    intros Hs Ho. pose proof Ho as (Co & _). unfold base_mul. rewrite <- Co.
    assert (main : forall k k' x x' y y', arel k x x' -> arel k' y y' ->
      let f (S : sops) (x y : atom S) := 
        (let bs0 := chars (a_bond x) in let bs1 := chars (a_bond y) in
            if fmt_ok "r"%char bs0 && fmt_ok "l"%char bs1 then
              match ein_strings bs0 bs1 with
              | None => raise IndexError
              | Some (s0, s1, out) =>
                  let! t := lift (einsum (str (s0 ++ chars "," ++ s1 ++ chars "->" ++ out))
                                         [a_ten x; a_ten y]) in
                  some_atom S (wrap S t (str out))
              end
            else raise AssertionError) in
      mrel (orel (fun a a' => arel (Datatypes.S (k + k') + D) a a' /\ a_cls a <> KMatRegion /\ a_cls a <> KScalar)) (f S1 x y) (f S2 x' y')).
    { clear. intros k k' x x' y y' (_ & Bx & Tx & Wx) (_ & By & Ty & Wy) f. unfold f. clear f. cbv zeta. rewrite <- Bx, <- By.
      destruct (fmt_ok "r"%char (chars (a_bond x))) eqn:F0; [|apply mrel_raise]. destruct (fmt_ok "l"%char (chars (a_bond y))) eqn:F1; [|apply mrel_raise].
      cbn [andb]. destruct (ein_strings _ _) as [[[s0 s1] out]|] eqn:Ee; [|apply mrel_raise].
      destruct (ein_strings_spec _ _ _ _ _ D (shp (a_ten x)) (shp (a_ten y)) F0 F1 Ee (wf_D _ _ _ Wx) (wf_D _ _ _ Wy)) as (sc & P0 & P1 & Po & (r & Er) & Q0 & Q1 & Hin).
      set (P := fun c d => c = sc \/ c = "l"%char \/ c = "r"%char -> d <= D) in *.
      assert (dims_ok : forall dims, add_ops [s0; s1] [a_ten x; a_ten y] [] = Some dims ->
                NoDup (map fst dims) /\ env_all P dims /\ forall c, In c (map fst dims) -> In c s0 \/ In c s1).
      { intros dims Hd. cbn [add_ops] in Hd. destruct (add_labels s0 (shp (a_ten x)) []) as [e1|] eqn:E1; [|discriminate Hd].
        destruct (add_labels s1 (shp (a_ten y)) e1) as [e2|] eqn:E2; [|discriminate Hd]. injection Hd as <-.
        destruct (add_labels_props P _ _ _ _ E1) as (A1 & A2 & A3 & _); [constructor|intros ? ? []|exact Q0|].
        destruct (add_labels_props P _ _ _ _ E2) as (B1 & B2 & B3 & _); [exact A1|exact A2|exact Q1|].
        split; [exact B1|]. split; [exact B2|]. intros c Hc. destruct (B3 c Hc) as [I|I]; [|right; exact I]. destruct (A3 c I) as [[]|I']. left. exact I'. }
      pose proof (parse_eins_two s0 s1 out P0 P1) as Hpe.
      eapply mrel_bind.
      { apply mrel_lift. pose proof (einsum_rel_2 S1 S2 G _ _ _ _ k k' _ _ _ _ D Hpe Tx Ty) as X.
        assert (X' : rrel (fun t t' => trel (S (k + k') + D) t t' /\ List.length out = List.length (shp t) /\ sh_all (lr_le D) out (shp t))
                 (einsum (str (s0 ++ chars "," ++ s1 ++ chars "->" ++ out)) [a_ten x; a_ten y]) (einsum (str (s0 ++ chars "," ++ s1 ++ chars "->" ++ out)) [a_ten x'; a_ten y'])).
        { assert (X0 : forall dims, add_ops [s0; s1] [a_ten x; a_ten y] [] = Some dims -> csum (filter (fun p => negb (inlabels (fst p) out)) dims) <= D).
          { intros dims Hd. destruct (dims_ok dims Hd) as (A & B & C). apply (not_in_out_csum dims out sc D P A B); [|intros d Hd'; apply Hd'; left; reflexivity].
            intros c Hc. apply Hin, C, Hc. }
          specialize (X X0). destruct (einsum _ [a_ten x; a_ten y]) as [t|e] eqn:Et; [|exact X].
          destruct (einsum _ [a_ten x'; a_ten y']) as [t'|e']; [|exact X]. cbn [rrel] in *. split; [exact X|].
          unfold einsum in Et. rewrite Hpe in Et. destruct (add_ops [s0; s1] _ []) as [dims|] eqn:Ed; [|discriminate Et].
          destruct (mapopt _ out) as [osh|] eqn:Em; [|discriminate Et]. injection Et as <-. cbn [shp]. split; [symmetry; eapply mapopt_length; exact Em|].
          destruct (dims_ok dims eq_refl) as (_ & B & _). intros c d I Hc. apply (mapopt_in _ _ _ Em) in I. apply elook_in in I. apply (B c d I). right. exact Hc. }
        exact X'. }
      intros t t' (Tt & Lt & St). eapply some_atom_rel; [|eapply (wrap_rel _ _ _ _ r)]; [intros a a' Q; exact Q|exact Tt| | | |]; rewrite chars_str; assumption. }
    destruct (a_cls o); try (apply mrel_ret; exact I); destruct rmul; try (apply (main k k'); assumption);
      replace (S (k + k')) with (S (k' + k)) by lia; apply (main k' k); assumption.
  Qed.
End ParamMul.
