(** * ContrProofs: products of contractables are products of matrices *)
From Verif Require Import Base Scalars Tensor Spec LinAlg Utils2Proofs MatseqProofs ParProofs EinsumProofs Contractables ContrSpec.

Section P.
  Variable K : cring.
  Add Ring Kr : (rth K).
  Notation at_ := (atom K).
  Implicit Types t u v : tensor K.

  Lemma init_full c t bond B r g :
    shp t = B :: r -> String.length bond = Datatypes.S (List.length r) ->
    hd_error (chars bond) = Some "b"%char ->
    init K c t bond g = (Ok (mkA c t bond), Some B).
  Proof.
    intros Ht Hl Hb. unfold init, ndim. rewrite Ht. destruct (chars bond) as [|b0 rest] eqn:Ec; [discriminate|].
    cbn in Hb. injection Hb as ->. cbn [inb existsb]. rewrite Ascii.eqb_refl. cbn [orb negb andb].
    cbn [List.length]. rewrite Hl. destruct (Nat.eqb_spec (Datatypes.S (List.length r)) (Datatypes.S (List.length r) + 1)); [lia|].
    rewrite Nat.eqb_refl. reflexivity.
  Qed.
  Ltac initf := first [ eapply init_full; [eassumption|reflexivity|reflexivity] ].

  (** *** the einsum strings of Contractable.__mul__ *)
  Lemma e_mat_vec t u B r c : shp t = [B; r; c] -> shp u = [B; c] ->
    exists v, einsum "blz,bz->bl" [t; u] = Ok v /\ shp v = [B; r] /\
      forall b i, b < B -> i < r -> get v [b; i] = bsum c (fun k => smul (get t [b; i; k]) (get u [b; k])).
  Proof.
    intros Ht Hu. eins_open. eexists. split; [reflexivity|]. split; [reflexivity|].
    intros. eins_get. eins_sum.
  Qed.
  Lemma e_vec_mat t u B r c : shp t = [B; r] -> shp u = [B; r; c] ->
    exists v, einsum "bz,bzr->br" [t; u] = Ok v /\ shp v = [B; c] /\
      forall b i, b < B -> i < c -> get v [b; i] = bsum r (fun k => smul (get t [b; k]) (get u [b; k; i])).
  Proof.
    intros Ht Hu. eins_open. eexists. split; [reflexivity|]. split; [reflexivity|].
    intros. eins_get. eins_sum.
  Qed.
  Lemma e_mat_mat t u B r m c : shp t = [B; r; m] -> shp u = [B; m; c] ->
    exists v, einsum "blz,bzr->blr" [t; u] = Ok v /\ shp v = [B; r; c] /\
      forall b i j, b < B -> i < r -> j < c -> get v [b; i; j] = bsum m (fun k => smul (get t [b; i; k]) (get u [b; k; j])).
  Proof.
    intros Ht Hu. eins_open. eexists. split; [reflexivity|]. split; [reflexivity|].
    intros. eins_get. eins_sum.
  Qed.
  Lemma e_mat_core t u B O r m c : shp t = [B; r; m] -> shp u = [B; O; m; c] ->
    exists v, einsum "blz,bozr->bolr" [t; u] = Ok v /\ shp v = [B; O; r; c] /\
      forall b o i j, b < B -> o < O -> i < r -> j < c -> get v [b; o; i; j] = bsum m (fun k => smul (get t [b; i; k]) (get u [b; o; k; j])).
  Proof.
    intros Ht Hu. eins_open. eexists. split; [reflexivity|]. split; [reflexivity|].
    intros. eins_get. eins_sum.
  Qed.
  Lemma e_core_mat t u B O r m c : shp t = [B; O; r; m] -> shp u = [B; m; c] ->
    exists v, einsum "bolz,bzr->bolr" [t; u] = Ok v /\ shp v = [B; O; r; c] /\
      forall b o i j, b < B -> o < O -> i < r -> j < c -> get v [b; o; i; j] = bsum m (fun k => smul (get t [b; o; i; k]) (get u [b; k; j])).
  Proof.
    intros Ht Hu. eins_open. eexists. split; [reflexivity|]. split; [reflexivity|].
    intros. eins_get. eins_sum.
  Qed.
  Lemma e_core_vec t u B O r m : shp t = [B; O; r; m] -> shp u = [B; m] ->
    exists v, einsum "bolz,bz->bol" [t; u] = Ok v /\ shp v = [B; O; r] /\
      forall b o i, b < B -> o < O -> i < r -> get v [b; o; i] = bsum m (fun k => smul (get t [b; o; i; k]) (get u [b; k])).
  Proof.
    intros Ht Hu. eins_open. eexists. split; [reflexivity|]. split; [reflexivity|].
    intros. eins_get. eins_sum.
  Qed.
  Lemma e_mat_outvec t u B O r m : shp t = [B; r; m] -> shp u = [B; O; m] ->
    exists v, einsum "blz,boz->bol" [t; u] = Ok v /\ shp v = [B; O; r] /\
      forall b o i, b < B -> o < O -> i < r -> get v [b; o; i] = bsum m (fun k => smul (get t [b; i; k]) (get u [b; o; k])).
  Proof.
    intros Ht Hu. eins_open. eexists. split; [reflexivity|]. split; [reflexivity|].
    intros. eins_get. eins_sum.
  Qed.
  Lemma e_mat_outmat t u B O r m : shp t = [B; r; m] -> shp u = [B; m; O] ->
    exists v, einsum "blz,bzo->bol" [t; u] = Ok v /\ shp v = [B; O; r] /\
      forall b o i, b < B -> o < O -> i < r -> get v [b; o; i] = bsum m (fun k => smul (get t [b; i; k]) (get u [b; k; o])).
  Proof.
    intros Ht Hu. eins_open. eexists. split; [reflexivity|]. split; [reflexivity|].
    intros. eins_get. eins_sum.
  Qed.
  Lemma e_vec_outvec t u B O m : shp t = [B; m] -> shp u = [B; O; m] ->
    exists v, einsum "bz,boz->bo" [t; u] = Ok v /\ shp v = [B; O] /\
      forall b o, b < B -> o < O -> get v [b; o] = bsum m (fun k => smul (get t [b; k]) (get u [b; o; k])).
  Proof.
    intros Ht Hu. eins_open. eexists. split; [reflexivity|]. split; [reflexivity|].
    intros. eins_get. eins_sum.
  Qed.
  Lemma e_vec_outmat t u B O m : shp t = [B; m] -> shp u = [B; m; O] ->
    exists v, einsum "bz,bzo->bo" [t; u] = Ok v /\ shp v = [B; O] /\
      forall b o, b < B -> o < O -> get v [b; o] = bsum m (fun k => smul (get t [b; k]) (get u [b; k; o])).
  Proof.
    intros Ht Hu. eins_open. eexists. split; [reflexivity|]. split; [reflexivity|].
    intros. eins_get. eins_sum.
  Qed.

  (** *** results of a product *)
  (** x * y gives a contractable whose matrix is the product of the matrices *)
  Definition prod_ok (x y : at_) (B r m c : nat) (out : option nat) (zb : string) : Prop :=
    forall g, exists z, mul K (Atom x) (Atom y) g = (Ok (Atom z), Some B) /\ typed z B r c out /\ a_bond z = zb /\
      forall b o i j, b < B -> o < osize out -> i < r -> j < c ->
        meaning z b o i j = mmul m (meaning x b o) (meaning y b o) i j.


  Lemma wrap_some s (l : list (tensor K)) v out B r g :
    einsum s l = Ok v -> shp v = B :: r ->
    (forall g', wrap K v out g' = (Ok (mkA (match out with
        | "br" | "bl" => KEdgeVec | "blr" => KSingleMat | "bolr" => KOutputCore | _ => KBase end)%string v out), Some B)) ->
    forall h, or_else K (mbind (lift (einsum s l)) (fun w => some_atom K (wrap K w out))) h g =
    (Ok (Atom (mkA (match out with
        | "br" | "bl" => KEdgeVec | "blr" => KSingleMat | "bolr" => KOutputCore | _ => KBase end)%string v out)), Some B).
  Proof.
    intros E Hv Hw h. unfold or_else, mbind, lift, some_atom. rewrite E. unfold mbind. rewrite Hw. reflexivity.
  Qed.
  Ltac by_einsum H Ht Hu :=
    intros g; let v := fresh "v" in let Ev := fresh "Ev" in let Hv := fresh "Hv" in let Hg := fresh "Hg" in
    edestruct H as (v & Ev & Hv & Hg); [exact Ht|exact Hu|];
    eexists; split;
    [ match type of Ev with einsum ?s ?l = _ =>
        let out := eval vm_compute in (str (snd (parse_eins s))) in
        match goal with |- mul _ ?x ?y _ = _ =>
        first [ transitivity (or_else K (mbind (lift (einsum s l)) (fun w => some_atom K (wrap K w out))) (rmul_method K y x) g); [reflexivity|]
              | transitivity (or_else K (mbind (lift (einsum s l)) (fun w => some_atom K (wrap K w out))) (ret None) g); [reflexivity|]] end;
        apply (wrap_some s l v out _ _ g Ev Hv) end;
      intros g'; unfold wrap; cbn [String.eqb Ascii.eqb Bool.eqb andb];
      unfold edge_vec, single_mat, output_core, ndim; rewrite ?Hv; cbn [List.length Nat.eqb orb];
      rewrite (init_full _ _ _ _ _ _ Hv) by reflexivity; reflexivity
    | split; [constructor; exact Hv|]; split; [reflexivity|];
      intros b o i j Hb Ho Hi Hj; unfold meaning, mmul; cbn [a_bond a_ten String.eqb Ascii.eqb Bool.eqb andb osize] in *;
      apply Hg; assumption ].
  Lemma mul_mat_right t u B r m : shp t = [B; r; m] -> shp u = [B; m] ->
    prod_ok (mkA KSingleMat t "blr") (mkA KEdgeVec u "bl") B r m 1 None "bl".
  Proof. intros Ht Hu. by_einsum (e_mat_vec t u B r m) Ht Hu. Qed.
  Lemma mul_left_mat t u B m c : shp t = [B; m] -> shp u = [B; m; c] ->
    prod_ok (mkA KEdgeVec t "br") (mkA KSingleMat u "blr") B 1 m c None "br".
  Proof. intros Ht Hu. by_einsum (e_vec_mat t u B m c) Ht Hu. Qed.
  Lemma mul_mat_mat t u B r m c : shp t = [B; r; m] -> shp u = [B; m; c] ->
    prod_ok (mkA KSingleMat t "blr") (mkA KSingleMat u "blr") B r m c None "blr".
  Proof. intros Ht Hu. by_einsum (e_mat_mat t u B r m c) Ht Hu. Qed.
  Lemma mul_mat_core t u B O r m c : shp t = [B; r; m] -> shp u = [B; O; m; c] ->
    prod_ok (mkA KSingleMat t "blr") (mkA KOutputCore u "bolr") B r m c (Some O) "bolr".
  Proof. intros Ht Hu. by_einsum (e_mat_core t u B O r m c) Ht Hu. Qed.
  Lemma mul_core_mat t u B O r m c : shp t = [B; O; r; m] -> shp u = [B; m; c] ->
    prod_ok (mkA KOutputCore t "bolr") (mkA KSingleMat u "blr") B r m c (Some O) "bolr".
  Proof. intros Ht Hu. by_einsum (e_core_mat t u B O r m c) Ht Hu. Qed.
  Lemma mul_core_right t u B O r m : shp t = [B; O; r; m] -> shp u = [B; m] ->
    prod_ok (mkA KOutputCore t "bolr") (mkA KEdgeVec u "bl") B r m 1 (Some O) "bol".
  Proof. intros Ht Hu. by_einsum (e_core_vec t u B O r m) Ht Hu. Qed.
  Lemma mul_mat_outvec t u B O r m : shp t = [B; r; m] -> shp u = [B; O; m] ->
    prod_ok (mkA KSingleMat t "blr") (mkA KBase u "bol") B r m 1 (Some O) "bol".
  Proof. intros Ht Hu. by_einsum (e_mat_outvec t u B O r m) Ht Hu. Qed.
  Lemma mul_mat_outmat t u B O r m : shp t = [B; r; m] -> shp u = [B; m; O] ->
    prod_ok (mkA KSingleMat t "blr") (mkA KOutputMat u "blo") B r m 1 (Some O) "bol".
  Proof. intros Ht Hu. by_einsum (e_mat_outmat t u B O r m) Ht Hu. Qed.
  Lemma mul_left_outvec t u B O m : shp t = [B; m] -> shp u = [B; O; m] ->
    prod_ok (mkA KEdgeVec t "br") (mkA KBase u "bol") B 1 m 1 (Some O) "bo".
  Proof. intros Ht Hu. by_einsum (e_vec_outvec t u B O m) Ht Hu. Qed.
  Lemma mul_left_outmat t u B O m : shp t = [B; m] -> shp u = [B; m; O] ->
    prod_ok (mkA KEdgeVec t "br") (mkA KOutputMat u "blo") B 1 m 1 (Some O) "bo".
  Proof. intros Ht Hu. by_einsum (e_vec_outmat t u B O m) Ht Hu. Qed.

  (** *** regions and edge vectors *)
  Definition slices (t : tensor K) (b D a n : nat) : list (nat * mat K) :=
    map (fun s => (D, fun p q => get t [b; s; p; q])) (seq a n).
  Lemma bmm_all_right t v B D N : shp t = [B; N; D; D] -> forall n a, shp v = [B; 1; D] ->
    exists w, bmm_all K true v (map (fun k => selE 2 t k) (seq a n)) = Ok w /\ shp w = [B; 1; D] /\
      forall b j, b < B -> j < D -> get w [b; 0; j] = mmul D (fun _ k => get v [b; 0; k]) (chain (slices t b D a n)) 0 j.
  Proof.
    intros Ht n. revert v. induction n as [|n IH]; intros v a Hv.
    - exists v. split; [reflexivity|]. split; [exact Hv|]. intros b j Hb Hj. unfold slices. cbn [seq map chain].
      rewrite mmul_delta_r by exact Hj. reflexivity.
    - cbn [seq map bmm_all].
      set (m := selE 2 t a). assert (Hm : shp m = [B; D; D]) by (unfold m, selE; cbn [shp]; rewrite Ht; reflexivity).
      unfold bmm at 1. rewrite Hv, Hm, !Nat.eqb_refl. cbn [andb rbind].
      set (v1 := mkT [B; 1; D] (fun i => bsum D (fun k => smul (get v [nth 0 i 0; nth 1 i 0; k]) (get m [nth 0 i 0; k; nth 2 i 0])))).
      destruct (IH v1 (Datatypes.S a) eq_refl) as (w & Ew & Hw & Hg).
      exists w. split; [exact Ew|]. split; [exact Hw|]. intros b j Hb Hj.
      rewrite Hg by assumption. unfold slices. cbn [seq map].
      fold (slices t b D (Datatypes.S a) n).
      transitivity (mmul D (fun _ k => get v [b; 0; k]) (mmul D (fun p q => get t [b; a; p; q]) (chain (slices t b D (Datatypes.S a) n))) 0 j);
        [|apply mmul_ext; intros; [reflexivity|symmetry; apply chain_cons]].
      rewrite <- mmul_assoc. apply mmul_ext; intros; [|reflexivity].
      reflexivity.
  Qed.
  Lemma bmm_all_left t v B D N : shp t = [B; N; D; D] -> forall n a, shp v = [B; D; 1] ->
    exists w, bmm_all K false v (rev (map (fun k => selE 2 t k) (seq a n))) = Ok w /\ shp w = [B; D; 1] /\
      forall b i, b < B -> i < D -> get w [b; i; 0] = mmul D (chain (slices t b D a n)) (fun k _ => get v [b; k; 0]) i 0.
  Proof.
    intros Ht n a Hv.
    assert (G : forall l l2 u, bmm_all K false u (l ++ l2) = rbind (bmm_all K false u l) (fun w => bmm_all K false w l2)).
    { induction l as [|x l IH]; intros l2 u; [reflexivity|]. cbn [app bmm_all]. destruct (bmm K x u); [cbn [rbind]; apply IH|reflexivity]. }
    revert a. induction n as [|n IH]; intros a.
    - exists v. split; [reflexivity|]. split; [exact Hv|]. intros b i Hb Hi. unfold slices. cbn [seq map chain].
      rewrite mmul_delta_l by exact Hi. reflexivity.
    - cbn [seq map rev]. rewrite G. destruct (IH (Datatypes.S a)) as (w & Ew & Hw & Hg). rewrite Ew. cbn [rbind bmm_all].
      set (m := selE 2 t a). assert (Hm : shp m = [B; D; D]) by (unfold m, selE; cbn [shp]; rewrite Ht; reflexivity).
      unfold bmm at 1. rewrite Hw, Hm, !Nat.eqb_refl. cbn [andb rbind]. eexists. split; [reflexivity|]. split; [reflexivity|].
      intros b i Hb Hi. unfold slices. cbn [seq map]. fold (slices t b D (Datatypes.S a) n). cbn [get nth].
      transitivity (mmul D (mmul D (fun p q => get t [b; a; p; q]) (chain (slices t b D (Datatypes.S a) n))) (fun k _ => get v [b; k; 0]) i 0);
        [|apply mmul_ext; intros; [symmetry; apply chain_cons|reflexivity]].
      rewrite mmul_assoc. unfold mmul at 1. apply bsum_ext. intros k Hk. rewrite Hg by assumption. reflexivity.
  Qed.
  Lemma meaning_region t b o B n D i j : shp t = [B; n; D; D] ->
    meaning (mkA KMatRegion t "bslr") b o i j = chain (slices t b D 0 n) i j.
  Proof. intros Ht. unfold meaning. cbn [a_bond a_ten String.eqb Ascii.eqb Bool.eqb andb]. rewrite Ht. reflexivity. Qed.

  Lemma edge_vec_ok v B D left g : shp v = [B; D] ->
    edge_vec K v left g = (Ok (mkA KEdgeVec v (if left then "br" else "bl")%string), Some B).
  Proof.
    intros Hv. unfold edge_vec, ndim. rewrite Hv. cbn [List.length Nat.eqb orb].
    apply init_full with (r := [D]); [exact Hv|destruct left; reflexivity|destruct left; reflexivity].
  Qed.
  Lemma mul_left_region t u B n D : shp t = [B; D] -> shp u = [B; n; D; D] -> 0 < n ->
    prod_ok (mkA KEdgeVec t "br") (mkA KMatRegion u "bslr") B 1 D D None "br".
  Proof.
    intros Ht Hu Hn g.
    assert (Hv : shp (unsqE 1 t) = [B; 1; D]) by (unfold unsqE; cbn [shp]; rewrite Ht; reflexivity).
    destruct (bmm_all_right u (unsqE 1 t) B D n Hu n 0 Hv) as (w & Ew & Hw & Hg).
    set (v := squeezeE 1 w).
    assert (Hsv : shp v = [B; D]) by (unfold v, squeezeE; rewrite Hw; reflexivity).
    exists (mkA KEdgeVec v "br"). split; [|split; [|split]].
    - unfold mul. cbn [same_class a_cls right_first]. unfold or_else, mbind at 1.
      cbn [lmul_method a_cls edge_mul]. unfold ret at 1. cbv iota. unfold mbind.
      cbn [rmul_method a_cls region_mul a_ten]. rewrite Hu. cbn [nth].
      destruct (Nat.eqb_spec n 0); [lia|]. unfold mbind, lift. rewrite Ew. fold v. unfold some_atom, mbind.
      rewrite (edge_vec_ok v B D true _ Hsv). reflexivity.
    - constructor. exact Hsv.
    - reflexivity.
    - intros b o i j Hb Ho Hi Hj. unfold meaning at 1. cbn [a_bond a_ten String.eqb Ascii.eqb Bool.eqb andb].
      transitivity (get w [b; 0; j]); [unfold v, squeezeE; rewrite Hw; reflexivity|].
      rewrite Hg by assumption.
      replace i with 0 by lia. apply mmul_ext; intros k Hk.
      + reflexivity.
      + symmetry. apply meaning_region with (B := B). exact Hu.
  Qed.
  Lemma mul_region_right t u B n D : shp t = [B; n; D; D] -> 0 < n -> shp u = [B; D] ->
    prod_ok (mkA KMatRegion t "bslr") (mkA KEdgeVec u "bl") B D D 1 None "bl".
  Proof.
    intros Ht Hn Hu g.
    assert (Hv : shp (unsqE 0 u) = [B; D; 1]) by (unfold unsqE; cbn [shp]; rewrite Hu; reflexivity).
    destruct (bmm_all_left t (unsqE 0 u) B D n Ht n 0 Hv) as (w & Ew & Hw & Hg).
    set (v := squeezeE 0 w).
    assert (Hsv : shp v = [B; D]) by (unfold v, squeezeE; rewrite Hw; reflexivity).
    exists (mkA KEdgeVec v "bl"). split; [|split; [|split]].
    - unfold mul. cbn [same_class a_cls right_first]. unfold or_else, mbind.
      cbn [lmul_method a_cls region_mul a_ten]. rewrite Ht. cbn [nth].
      destruct (Nat.eqb_spec n 0); [lia|]. unfold mbind, lift. rewrite Ew. fold v. unfold some_atom, mbind.
      rewrite (edge_vec_ok v B D false _ Hsv). reflexivity.
    - constructor. exact Hsv.
    - reflexivity.
    - intros b o i j Hb Ho Hi Hj. unfold meaning at 1. cbn [a_bond a_ten String.eqb Ascii.eqb Bool.eqb andb].
      transitivity (get w [b; i; 0]); [unfold v, squeezeE; rewrite Hw; reflexivity|].
      rewrite Hg by assumption.
      replace j with 0 by lia. apply mmul_ext; intros k Hk.
      + symmetry. apply meaning_region with (B := B). exact Ht.
      + reflexivity.
  Qed.
  Lemma mul_left_right t u B D : shp t = [B; D] -> shp u = [B; D] ->
    prod_ok (mkA KEdgeVec t "br") (mkA KEdgeVec u "bl") B 1 D 1 None "b".
  Proof.
    intros Ht Hu g.
    assert (Hl : shp (unsqE 1 t) = [B; 1; D]) by (unfold unsqE; cbn [shp]; rewrite Ht; reflexivity).
    assert (Hr : shp (unsqE 0 u) = [B; D; 1]) by (unfold unsqE; cbn [shp]; rewrite Hu; reflexivity).
    eexists. split; [|split; [|split]].
    - unfold mul. cbn [same_class a_cls right_first]. unfold or_else, mbind.
      cbn [lmul_method a_cls edge_mul a_ten]. unfold bmm. rewrite Hl, Hr, !Nat.eqb_refl. cbn [andb].
      unfold mbind, lift. cbn [nth]. unfold some_atom, mbind, scalar, ndim. cbn [shp List.length Nat.eqb].
      rewrite (init_full KScalar _ "b" B [] g) by reflexivity. reflexivity.
    - constructor. reflexivity.
    - reflexivity.
    - intros b o i j Hb Ho Hi Hj. replace i with 0 by lia. replace j with 0 by lia. reflexivity.
  Qed.
  Lemma mul_region_outvec t u g : mul K (Atom (mkA KMatRegion t "bslr")) (Atom (mkA KBase u "bol")) g = (Err TypeError, g).
  Proof. reflexivity. Qed.
  Lemma mul_region_outmat t u g : mul K (Atom (mkA KMatRegion t "bslr")) (Atom (mkA KOutputMat u "blo")) g = (Err TypeError, g).
  Proof. reflexivity. Qed.
  Lemma mul_region_core t u g : mul K (Atom (mkA KMatRegion t "bslr")) (Atom (mkA KOutputCore u "bolr")) g = (Err TypeError, g).
  Proof. reflexivity. Qed.

  (** *** MatRegion.reduce *)
  Lemma rchain_eq_app m (a a' b b' : list (nat * mat K)) :
    chain_eq K m a a' -> (forall d, chain_eq K d b b') -> chain_eq K m (a ++ b) (a' ++ b').
  Proof.
    revert m a'; induction a as [|[n M] a IH]; intros m [|[n' M'] a'] Ha Hb; try contradiction Ha.
    - apply Hb.
    - destruct Ha as (-> & HM & Ha). cbn [app chain_eq]. split; [reflexivity|]. split; [exact HM|]. apply IH; assumption.
  Qed.
  Definition rcl (D : nat) (C : nat -> mat K) (a n : nat) : list (nat * mat K) :=
    map (fun p => (D, C p)) (seq a n).
  Lemma rcl_shift D (C : nat -> mat K) a n : rcl D (fun p => C (Datatypes.S p)) a n = rcl D C (Datatypes.S a) n.
  Proof. unfold rcl. rewrite <- seq_shift, map_map. reflexivity. Qed.
  Lemma rcl_ext D (C C' : nat -> mat K) a n d :
    (forall p i j, a <= p < a + n -> i < max d D -> j < D -> C p i j = C' p i j) ->
    chain_eq K d (rcl D C a n) (rcl D C' a n).
  Proof.
    revert a d; induction n as [|n IH]; intros a d H; [exact I|].
    unfold rcl. cbn [seq map chain_eq]. split; [reflexivity|]. split.
    - intros i k Hi Hk. apply H; lia.
    - apply IH. intros p i j Hp Hi Hj. apply H; lia.
  Qed.
  Lemma rpair_chain D h : forall (C : nat -> mat K) rest i j,
    chain (rcl D (fun p => mmul D (C (2 * p)) (C (2 * p + 1))) 0 h ++ rest) i j
    = chain (rcl D C 0 (2 * h) ++ rest) i j.
  Proof.
    induction h as [|h IH]; intros C rest i j; [reflexivity|].
    replace (2 * Datatypes.S h) with (Datatypes.S (Datatypes.S (2 * h))) by lia.
    change (rcl D C 0 (Datatypes.S (Datatypes.S (2 * h)))) with ((D, C 0) :: (D, C 1) :: rcl D C 2 (2 * h)).
    rewrite <- !rcl_shift, <- !app_comm_cons, (chain_absorb K).
    change (rcl D (fun p => mmul D (C (2 * p)) (C (2 * p + 1))) 0 (Datatypes.S h))
      with ((D, mmul D (C 0) (C 1)) :: rcl D (fun p => mmul D (C (2 * p)) (C (2 * p + 1))) 1 h).
    rewrite <- rcl_shift, <- app_comm_cons, !chain_cons.
    apply mmul_ext; [reflexivity|]. intros k Hk.
    rewrite <- (IH (fun p => C (Datatypes.S (Datatypes.S p))) rest k j).
    apply (chain_eq_chain K (Datatypes.S k)); [|lia].
    apply rchain_eq_app; [|intros; apply chain_eq_refl].
    apply rcl_ext. intros p a b _ _ _.
    replace (2 * Datatypes.S p) with (Datatypes.S (Datatypes.S (2 * p))) by lia. reflexivity.
  Qed.
  Lemma rcl_split D (C : nat -> mat K) m n : rcl D C 0 (m + n) = rcl D C 0 m ++ rcl D (fun p => C (m + p)) 0 n.
  Proof.
    unfold rcl. rewrite seq_app, map_app. f_equal. rewrite Nat.add_0_l.
    replace (seq m n) with (map (fun p => m + p) (seq 0 n)).
    - rewrite map_map. reflexivity.
    - clear. induction n as [|n IH]; [reflexivity|].
      rewrite (seq_S n), (seq_S n m), map_app, IH. reflexivity.
  Qed.
  Lemma e_region t u B n D : shp t = [B; n; D; D] -> shp u = [B; n; D; D] ->
    exists v, einsum "bslu,bsur->bslr" [t; u] = Ok v /\ shp v = [B; n; D; D] /\
      forall b s i j, b < B -> s < n -> i < D -> j < D -> get v [b; s; i; j] = bsum D (fun k => smul (get t [b; s; i; k]) (get u [b; s; k; j])).
  Proof.
    intros Ht Hu. eins_open. eexists. split; [reflexivity|]. split; [reflexivity|].
    intros. eins_get. eins_sum.
  Qed.
  Lemma region_loop_ok B D : forall fuel n t, n <= fuel -> 0 < n -> shp t = [B; n; D; D] ->
    exists m, region_loop K fuel n t = Ok m /\ shp m = [B; 1; D; D] /\
      forall b i j, b < B -> i < D -> j < D -> get m [b; 0; i; j] = chain (slices t b D 0 n) i j.
  Proof.
    induction fuel as [|fuel IH]; intros n t Hf Hn Ht; [lia|]. cbn [region_loop].
    destruct (Nat.leb_spec n 1) as [H1|H1].
    - exists t. replace n with 1 in * by lia. split; [reflexivity|]. split; [exact Ht|].
      intros b i j Hb Hi Hj. unfold slices. cbn [seq map]. rewrite chain_single by exact Hj. reflexivity.
    - rewrite Ht. cbn [nth]. set (h := n / 2).
      assert (Hh : n = 2 * h + n mod 2) by (unfold h; apply Nat.div_mod_eq).
      assert (Hm2 : n mod 2 < 2) by (apply Nat.mod_upper_bound; lia).
      replace (n - 2 * h) with (n mod 2) by lia.
      pose proof (sliceE_shp t [B] n D D h (fun p => 2 * p) Ht) as He.
      pose proof (sliceE_shp t [B] n D D h (fun p => 2 * p + 1) Ht) as Ho.
      pose proof (sliceE_shp t [B] n D D (n mod 2) (fun p => 2 * h + p) Ht) as Hl.
      destruct (e_region _ _ B h D He Ho) as (Q & EQ & HQ & GQ). rewrite EQ. cbn [rbind].
      destruct (cat2E_ok Q _ [B] h (n mod 2) D D HQ Hl) as (T & ET & HT & GT). rewrite ET. cbn [rbind].
      destruct (IH (h + n mod 2) T) as (m & Em & Hm & Gm); [lia|lia|exact HT|].
      exists m. split; [exact Em|]. split; [exact Hm|]. intros b i j Hb Hi Hj. rewrite Gm by assumption.
      set (C := fun s => (fun p q => get t [b; s; p; q]) : mat K).
      change (slices t b D 0 n) with (rcl D C 0 n).
      replace (rcl D C 0 n) with (rcl D C 0 (2 * h + n mod 2)) by (rewrite <- Hh; reflexivity). rewrite rcl_split.
      rewrite <- rpair_chain.
      change (slices T b D 0 (h + n mod 2)) with (rcl D (fun s => (fun p q => get T [b; s; p; q]) : mat K) 0 (h + n mod 2)).
      rewrite rcl_split. apply (chain_eq_chain K D); [|exact Hi].
      apply rchain_eq_app; [|intros d]; apply rcl_ext; intros p x y Hp Hx Hy.
      + rewrite Nat.max_id in Hx. pose proof (GT [b] p x y) as E; cbn [app] in E; cbv beta; rewrite E; clear E. destruct (Nat.ltb_spec p h); [|lia]. rewrite GQ by (assumption || lia).
        unfold mmul. apply bsum_ext. intros k Hk.
        reflexivity.
      + pose proof (GT [b] (h + p) x y) as E; cbn [app] in E; cbv beta; rewrite E; clear E. destruct (Nat.ltb_spec (h + p) h); [lia|].
        replace (h + p - h) with p by lia. exact (sliceE_get t [b] p x y _ _).
  Qed.
  Lemma region_reduce_ok t B n D g : shp t = [B; n; D; D] -> 0 < n ->
    exists z, region_reduce K (mkA KMatRegion t "bslr") g = (Ok z, Some B) /\ typed z B D D None /\
      a_cls z = KSingleMat /\
      forall b o i j, b < B -> i < D -> j < D -> meaning z b o i j = meaning (mkA KMatRegion t "bslr") b o i j.
  Proof.
    intros Ht Hn. destruct (region_loop_ok B D n n t (le_n n) Hn Ht) as (m & Em & Hm & Gm).
    assert (Hs : shp (squeezeE 2 m) = [B; D; D]) by (apply (squeezeE2_shp m [B] D D Hm)).
    exists (mkA KSingleMat (squeezeE 2 m) "blr"). split; [|split; [|split]].
    - unfold region_reduce. cbn [a_ten]. rewrite Ht. cbn [nth]. unfold mbind, lift. rewrite Em.
      unfold single_mat, ndim. rewrite Hs. cbn [List.length Nat.eqb orb].
      apply init_full with (r := [D; D]); [exact Hs|reflexivity|reflexivity].
    - constructor. exact Hs.
    - reflexivity.
    - intros b o i j Hb Hi Hj. rewrite (meaning_region t b o B n D i j Ht).
      unfold meaning. cbn [a_bond a_ten String.eqb Ascii.eqb Bool.eqb andb].
      etransitivity; [exact (squeezeE2_get m [B] D D [b] i j Hm)|]. apply Gm; assumption.
  Qed.
End P.
