(** * P_Contr: properties C41-C45 (torchmps/contractables.py) *)
From Coq Require Import Reals Lra.
From Verif Require Import Base Scalars Tensor Spec LinAlg EinsumProofs Contractables ContrSpec ContrProofs ContrReduce.

(** ** C41: MatRegion(t).reduce(), EdgeVec(v) * MatRegion(t) and MatRegion(t) * EdgeVec(v)
    for [t] of shape [B, n, D, D], n >= 1.  [region_mats t b n D] is the list of the [n]
    matrices of batch element [b]; [chain] is their ordered product (Spec.v). *)
Definition region_mats {S : sops} (t : tensor S) (b n D : nat) : list (nat * mat S) :=
  map (fun s => (D, fun p q => get t [b; s; p; q])) (seq 0 n).

Section C41.
  Variable K : cring.
  Lemma mat_region_ok (t : tensor K) B n D g : shp t = [B; n; D; D] ->
    mat_region K t g = (Ok (mkA KMatRegion t "bslr"), Some B).
  Proof.
    intros Ht. unfold mat_region, ndim. rewrite Ht. cbn [List.length Nat.eqb orb dimE rev app nth]. rewrite Nat.eqb_refl.
    apply init_full with (r := [n; D; D]); [exact Ht|reflexivity|reflexivity].
  Qed.
  Theorem C41_region_reduce (t : tensor K) B n D par g : shp t = [B; n; D; D] -> 1 <= n ->
    exists u, (let! a := mat_region K t in reduce K par (Atom a)) g = (Ok (Atom (mkA KSingleMat u "blr")), Some B) /\
      shp u = [B; D; D] /\
      forall b i j, b < B -> i < D -> j < D -> get u [b; i; j] = chain (region_mats t b n D) i j.
  Proof.
    intros Ht Hn. destruct (region_reduce_ok K t B n D (Some B) Ht ltac:(lia)) as (z & Ez & Tz & Cz & Mz).
    inversion Tz as [| |u ? ? ? Hu| | | | | |]; subst; cbn [a_cls] in Cz; try discriminate Cz.
    exists u. split; [|split; [exact Hu|]].
    - unfold mbind at 1. rewrite (mat_region_ok t B n D g Ht). cbn [reduce a_cls]. unfold mbind. rewrite Ez. reflexivity.
    - intros b i j Hb Hi Hj. pose proof (Mz b 0 i j Hb Hi Hj) as E.
      rewrite (meaning_region K t b 0 B n D i j Ht) in E. exact E.
  Qed.
  Theorem C41_sweep_from_left (v t : tensor K) B n D g : shp v = [B; D] -> shp t = [B; n; D; D] -> 1 <= n ->
    exists w, (let! e := edge_vec K v true in let! a := mat_region K t in mul K (Atom e) (Atom a)) g
        = (Ok (Atom (mkA KEdgeVec w "br")), Some B) /\ shp w = [B; D] /\
      forall b j, b < B -> j < D ->
        get w [b; j] = bsum D (fun i => smul (get v [b; i]) (chain (region_mats t b n D) i j)).
  Proof.
    intros Hv Ht Hn. destruct (mul_left_region K v t B n D Hv Ht ltac:(lia) (Some B)) as (z & Ez & Tz & Bz & Mz).
    inversion Tz as [w ? ? Hw|? ? ? Hw| | | | | | |]; subst; cbn [a_bond] in Bz; try discriminate Bz.
    exists w. split; [|split; [exact Hw|]].
    - unfold mbind. rewrite (edge_vec_ok K v B D true g Hv), (mat_region_ok t B n D _ Ht). exact Ez.
    - intros b j Hb Hj. pose proof (Mz b 0 0 j Hb ltac:(cbn; lia) ltac:(lia) Hj) as E.
      etransitivity; [exact E|]. unfold mmul. apply bsum_ext. intros k Hk.
      rewrite (meaning_region K t b 0 B n D k j Ht). reflexivity.
  Qed.
  Theorem C41_sweep_from_right (v t : tensor K) B n D g : shp v = [B; D] -> shp t = [B; n; D; D] -> 1 <= n ->
    exists w, (let! e := edge_vec K v false in let! a := mat_region K t in mul K (Atom a) (Atom e)) g
        = (Ok (Atom (mkA KEdgeVec w "bl")), Some B) /\ shp w = [B; D] /\
      forall b i, b < B -> i < D ->
        get w [b; i] = bsum D (fun j => smul (chain (region_mats t b n D) i j) (get v [b; j])).
  Proof.
    intros Hv Ht Hn. destruct (mul_region_right K t v B n D Ht ltac:(lia) Hv (Some B)) as (z & Ez & Tz & Bz & Mz).
    inversion Tz as [? ? ? Hw|w ? ? Hw| | | | | | |]; subst; cbn [a_bond] in Bz; try discriminate Bz.
    exists w. split; [|split; [exact Hw|]].
    - unfold mbind. rewrite (edge_vec_ok K v B D false g Hv), (mat_region_ok t B n D _ Ht). exact Ez.
    - intros b i Hb Hi. pose proof (Mz b 0 i 0 Hb ltac:(cbn; lia) Hi ltac:(lia)) as E.
      etransitivity; [exact E|]. unfold mmul. apply bsum_ext. intros k Hk.
      rewrite (meaning_region K t b 0 B n D i k Ht). reflexivity.
  Qed.
End C41.

(** a region of three 2x2 matrices over R for which the product is order sensitive *)
Definition ex_region : tensor R_ops := mkT [1; 3; 2; 2]
  (fun i => match i with [0; s; p; q] => INR (1 + s + 2 * p + 3 * q * s)%nat | _ => 0%R end).
Example C41_case : exists u, (let! a := mat_region R_cring ex_region in reduce R_cring false (Atom a)) None
    = (Ok (Atom (mkA KSingleMat u "blr")), Some 1) /\ get u [0; 0; 1] = 186%R.
Proof.
  destruct (C41_region_reduce R_cring ex_region 1 3 2 false None eq_refl ltac:(lia)) as (u & E & Hs & Hg).
  exists u. split; [exact E|]. etransitivity; [apply Hg; lia|].
  unfold region_mats, chain, mmul, delta; cbn. lra.
Qed.

(** ** C42: a left edge vector, any number of matrices, regions and at most one output core
    in any order, and a right edge vector (or an output matrix).  [product] is the ordered
    product of the matrices the items stand for (ContrSpec.v). *)
Section C42.
  Variable K : cring.
  Theorem C42_reduce_in_order par B out (L : atom K) mid R :
    a_bond L = "br"%string -> Forall is_mid_kind mid -> is_end_kind R ->
    chain_typed B 1 (L :: mid ++ [R]) 1 out ->
    forall g, exists z, reduce K par (CList (map Atom (L :: mid ++ [R]))) g = (Ok (Atom z), Some B) /\
      typed z B 1 1 out /\
      a_bond z = (match out with Some _ => "bo" | None => "b" end)%string /\
      forall b o, b < B -> o < osize out ->
        get (a_ten z) (match out with Some _ => [b; o] | None => [b] end) = product (L :: mid ++ [R]) b o 0 0.
  Proof.
    intros HL Hm HR Hc g.
    destruct (reduce_open K par B out L mid R) with (g := g) as (z & Ez & Tz & Bz & Mz); try assumption.
    { clear -Hm. induction Hm as [|a l Ha Hl IH]; constructor; [|exact IH]. unfold is_mid. destruct Ha as [[E|E]|E]; rewrite E; auto. }
    { unfold is_right. destruct HR as [E|E]; rewrite E; auto. }
    exists z. split; [exact Ez|]. split; [exact Tz|]. split; [exact Bz|].
    intros b o Hb Ho. rewrite <- (Mz b o 0 0 Hb Ho ltac:(lia) ltac:(lia)).
    unfold meaning. rewrite Bz. destruct out; reflexivity.
  Qed.
  (** parallel_eval does not change the result *)
  Theorem C42_parallel_same B out (L : atom K) mid R g z z' g1 g2 :
    a_bond L = "br"%string -> Forall is_mid_kind mid -> is_end_kind R ->
    chain_typed B 1 (L :: mid ++ [R]) 1 out ->
    reduce K false (CList (map Atom (L :: mid ++ [R]))) g = (Ok (Atom z), g1) ->
    reduce K true (CList (map Atom (L :: mid ++ [R]))) g = (Ok (Atom z'), g2) ->
    teq (a_ten z) (a_ten z').
  Proof.
    intros HL Hm HR Hc E1 E2.
    destruct (C42_reduce_in_order false B out L mid R HL Hm HR Hc g) as (y & Ey & Ty & By & My).
    destruct (C42_reduce_in_order true B out L mid R HL Hm HR Hc g) as (y' & Ey' & Ty' & By' & My').
    rewrite E1 in Ey. rewrite E2 in Ey'. injection Ey as <- _. injection Ey' as <- _.
    assert (S1 : shp (a_ten z) = match out with Some od => [B; od] | None => [B] end).
    { inversion Ty; subst; cbn [a_bond a_ten] in *; try discriminate By; assumption. }
    assert (S2 : shp (a_ten z') = match out with Some od => [B; od] | None => [B] end).
    { inversion Ty'; subst; cbn [a_bond a_ten] in *; try discriminate By'; assumption. }
    split; [congruence|]. intros i Hi. rewrite S1 in Hi.
    destruct out as [O|].
    - apply valid_cons in Hi as (b & r & -> & Hb & Hr). apply valid_cons in Hr as (o & r2 & -> & Ho & Hn). apply valid_nil in Hn as ->.
      rewrite (My b o Hb Ho), (My' b o Hb Ho). reflexivity.
    - apply valid_cons in Hi as (b & r & -> & Hb & Hr). apply valid_nil in Hr as ->.
      rewrite (My b 0 Hb ltac:(cbn; lia)), (My' b 0 Hb ltac:(cbn; lia)). reflexivity.
  Qed.
End C42.

(** the region in front of the output core makes reduce() fall back to the left end *)
Definition ex_vec (n : nat) : tensor R_ops := mkT [1; 2] (fun i => INR (1 + n + nth 1 i 0)%nat).
Definition ex_core : tensor R_ops := mkT [1; 2; 2; 2]
  (fun i => INR (nth 1 i 0 + 2 * nth 2 i 0 + nth 3 i 0)%nat).
Definition ex_chain : list (atom R_cring) :=
  mkA (S := R_cring) KEdgeVec (ex_vec 0) "br" :: [mkA (S := R_cring) KMatRegion ex_region "bslr"; mkA (S := R_cring) KOutputCore ex_core "bolr"]
  ++ [mkA (S := R_cring) KEdgeVec (ex_vec 1) "bl"].
Example C42_case : exists z, reduce R_cring false (CList (map Atom ex_chain)) None = (Ok (Atom z), Some 1) /\
   get (a_ten z) [0; 1] = product (S := R_ops) ex_chain 0 1 0 0 /\
   product (S := R_ops) ex_chain 0 1 0 0 <> product (S := R_ops) ex_chain 0 0 0 0.
Proof.
  destruct (C42_reduce_in_order R_cring false 1 (Some 2) (mkA (S := R_cring) KEdgeVec (ex_vec 0) "br")
     [mkA (S := R_cring) KMatRegion ex_region "bslr"; mkA (S := R_cring) KOutputCore ex_core "bolr"]
     (mkA (S := R_cring) KEdgeVec (ex_vec 1) "bl")) with (g := @None nat) as (z & Ez & Tz & Bz & Mz).
  - reflexivity.
  - constructor; [left; right; reflexivity|]. constructor; [right; reflexivity|constructor].
  - left; reflexivity.
  - eapply CT_plain; [constructor; reflexivity|]. eapply CT_plain; [eapply T_region with (n := 3); [reflexivity|lia]|].
    eapply CT_out; [constructor; reflexivity|]. eapply CT_plain; [constructor; reflexivity|constructor].
  - exists z. split; [exact Ez|]. split; [apply Mz; cbn; lia|].
    unfold product, chain, meaning, mmul, delta; cbn. lra.
Qed.

(** ** C43 *)
(** ContractableList([]) is accepted (the test [contractable_list is []] is never true), and
    its reduce() fails with IndexError; Scalar rejects 0-dimensional tensors. *)
Theorem C43_empty_list_refuted (S : sops) g par :
  contractable_list S [] = Ok (CList []) /\ reduce S par (CList []) g = (Err IndexError, g).
Proof. split; [reflexivity|]. destruct par; reflexivity. Qed.
Theorem C43_scalar_refuted (S : sops) (t : tensor S) g : shp t = [] -> scalar S t g = (Err ValueError, g).
Proof. intros H. unfold scalar, ndim. rewrite H. reflexivity. Qed.
(** what does hold: exactly the lists with a non-contractable item are rejected; exactly the
    1-dimensional tensors are accepted by Scalar *)
Theorem C43_list_checks_partial (S : sops) (l : list (contr S)) :
  (contractable_list S l = Ok (CList l) <-> forall t, ~ In (Raw t) l) /\
  (contractable_list S l = Err ValueError <-> exists t, In (Raw t) l).
Proof.
  unfold contractable_list.
  assert (H : forallb (is_contractable S) l = true <-> forall t, ~ In (Raw t) l).
  { rewrite forallb_forall. split.
    - intros H t Ht. specialize (H _ Ht). discriminate.
    - intros H c Hc. destruct c; try reflexivity. exfalso. eapply H; eassumption. }
  destruct (forallb (is_contractable S) l) eqn:E.
  - split; [tauto|]. split; [discriminate|]. intros (t & Ht). exfalso. eapply (proj1 H eq_refl); eassumption.
  - assert (X : exists t, In (Raw t) l).
    { clear H. induction l as [|c l IH]; [discriminate|]. destruct c; cbn in E; try (destruct (IH E) as (t & Ht); exists t; right; exact Ht).
      exists t. left. reflexivity. }
    split; [|split; auto]. split; [discriminate|]. intros N. destruct X as (t & Ht). destruct (N t Ht).
Qed.
Theorem C43_scalar_partial (S : sops) (t : tensor S) g :
  (exists a g', scalar S t g = (Ok a, g')) <-> exists B, shp t = [B].
Proof.
  unfold scalar, ndim. split.
  - intros (a & g' & H). destruct (shp t) as [|B [|C l]] eqn:E; cbn in H; try discriminate. eauto.
  - intros (B & E). rewrite E. cbn [List.length Nat.eqb].
    exists (mkA KScalar t "b"), (Some B).
    unfold init, ndim. rewrite E. cbn. reflexivity.
Qed.

(** ** C44 *)
Section C44.
  Variable K : cring.
  Add Ring KrC44 : (rth K).
  Definition scaled (x a : atom K) (s : tensor K) : Prop :=
    a_cls x = a_cls a /\ a_bond x = a_bond a /\ shp (a_ten x) = shp (a_ten a) /\
    forall b i, valid (shp (a_ten a)) (b :: i) -> get (a_ten x) (b :: i) = smul (get s [b]) (get (a_ten a) (b :: i)).
  Lemma scalar_main (a : atom K) (s : tensor K) B r c out : typed a B r c out -> shp s = [B] ->
    a_cls a <> KEdgeVec -> a_cls a <> KOutputMat ->
    exists t, (forall g', scalar_mul K (mkA KScalar s "b") (Atom a) g' = (Ok (Some (Atom (mkA (a_cls a) t (a_bond a)))), Some B))
       /\ scaled (mkA (a_cls a) t (a_bond a)) a s.
  Proof.
    intros Ha Hs N1 N2.
     inversion Ha as [? ? ? E|? ? ? E|? ? ? ? E|? ? ? ? E|? ? ? ? ? E|? ? ? ? E|? ? ? ? E|? ? ? E|? ? E]; subst; cbn [a_cls a_bond a_ten] in *; try congruence.
      - assert (G : exists v, einsum "blr,b->blr" [t; s] = Ok v /\ shp v = [B; r; c] /\ forall b i j, b < B -> i < r -> j < c -> get v [b; i; j] = smul (get t [b; i; j]) (get s [b])).
        { eins_open. eexists. split; [reflexivity|]. split; [reflexivity|]. intros. eins_get. eins_sum. }
        destruct G as (v & Ev & Hv & Hg). exists v. split.
        + intros g'. unfold scalar_mul. cbn [a_bond a_ten a_cls]. unfold mbind, lift.
          change (str (chars "blr" ++ chars ",b->" ++ chars "blr")) with "blr,b->blr"%string. rewrite Ev.
          unfold some_atom, mbind, single_mat, ndim. rewrite Hv. cbn [List.length Nat.eqb orb].
          rewrite (init_full K KSingleMat v "blr" B [r; c] g' Hv) by reflexivity. reflexivity.
        + split; [reflexivity|]. split; [reflexivity|]. split; [cbn [a_ten]; congruence|]. cbn [a_ten].
          intros b i Hi. rewrite E in Hi. apply valid_cons in Hi as (b' & i' & Eb & Hb & Hi). injection Eb as <- <-.
          apply valid_cons in Hi as (x & r2 & -> & Hx & Hr). apply valid_cons in Hr as (y & r3 & -> & Hy & Hn). apply valid_nil in Hn as ->.
          rewrite Hg by assumption. ring.
      - assert (G : exists v, einsum "bslr,b->bslr" [t; s] = Ok v /\ shp v = [B; n; c; c] /\ forall b k i j, b < B -> k < n -> i < c -> j < c -> get v [b; k; i; j] = smul (get t [b; k; i; j]) (get s [b])).
        { eins_open. eexists. split; [reflexivity|]. split; [reflexivity|]. intros. eins_get. eins_sum. }
        destruct G as (v & Ev & Hv & Hg). exists v. split.
        + intros g'. unfold scalar_mul. cbn [a_bond a_ten a_cls]. unfold mbind, lift.
          change (str (chars "bslr" ++ chars ",b->" ++ chars "bslr")) with "bslr,b->bslr"%string. rewrite Ev.
          unfold some_atom, mbind. rewrite (mat_region_ok K v B n c g' Hv). reflexivity.
        + split; [reflexivity|]. split; [reflexivity|]. split; [cbn [a_ten]; congruence|]. cbn [a_ten].
          intros b i Hi. rewrite E in Hi. apply valid_cons in Hi as (b' & i' & Eb & Hb & Hi). injection Eb as <- <-.
          apply valid_cons in Hi as (z & r1 & -> & Hz & Hi).
          apply valid_cons in Hi as (x & r2 & -> & Hx & Hr). apply valid_cons in Hr as (y & r3 & -> & Hy & Hn). apply valid_nil in Hn as ->.
          rewrite Hg by assumption. ring.
      - assert (G : exists v, einsum "bolr,b->bolr" [t; s] = Ok v /\ shp v = [B; O; r; c] /\ forall b k i j, b < B -> k < O -> i < r -> j < c -> get v [b; k; i; j] = smul (get t [b; k; i; j]) (get s [b])).
        { eins_open. eexists. split; [reflexivity|]. split; [reflexivity|]. intros. eins_get. eins_sum. }
        destruct G as (v & Ev & Hv & Hg). exists v. split.
        + intros g'. unfold scalar_mul. cbn [a_bond a_ten a_cls]. unfold mbind, lift.
          change (str (chars "bolr" ++ chars ",b->" ++ chars "bolr")) with "bolr,b->bolr"%string. rewrite Ev.
          unfold some_atom, mbind, output_core, ndim. rewrite Hv. cbn [List.length Nat.eqb orb].
          rewrite (init_full K KOutputCore v "bolr" B [O; r; c] g' Hv) by reflexivity. reflexivity.
        + split; [reflexivity|]. split; [reflexivity|]. split; [cbn [a_ten]; congruence|]. cbn [a_ten].
          intros b i Hi. rewrite E in Hi. apply valid_cons in Hi as (b' & i' & Eb & Hb & Hi). injection Eb as <- <-.
          apply valid_cons in Hi as (z & r1 & -> & Hz & Hi).
          apply valid_cons in Hi as (x & r2 & -> & Hx & Hr). apply valid_cons in Hr as (y & r3 & -> & Hy & Hn). apply valid_nil in Hn as ->.
          rewrite Hg by assumption. ring.
      - assert (G : exists v, einsum "bol,b->bol" [t; s] = Ok v /\ shp v = [B; O; r] /\ forall b i j, b < B -> i < O -> j < r -> get v [b; i; j] = smul (get t [b; i; j]) (get s [b])).
        { eins_open. eexists. split; [reflexivity|]. split; [reflexivity|]. intros. eins_get. eins_sum. }
        destruct G as (v & Ev & Hv & Hg). exists v. split.
        + intros g'. unfold scalar_mul. cbn [a_bond a_ten a_cls]. unfold mbind, lift.
          change (str (chars "bol" ++ chars ",b->" ++ chars "bol")) with "bol,b->bol"%string. rewrite Ev.
          unfold some_atom, mbind. rewrite (init_full K KBase v "bol" B [O; r] g' Hv) by reflexivity. reflexivity.
        + split; [reflexivity|]. split; [reflexivity|]. split; [cbn [a_ten]; congruence|]. cbn [a_ten].
          intros b i Hi. rewrite E in Hi. apply valid_cons in Hi as (b' & i' & Eb & Hb & Hi). injection Eb as <- <-.
          apply valid_cons in Hi as (x & r2 & -> & Hx & Hr). apply valid_cons in Hr as (y & r3 & -> & Hy & Hn). apply valid_nil in Hn as ->.
          rewrite Hg by assumption. ring.
      - assert (G : exists v, einsum "bo,b->bo" [t; s] = Ok v /\ shp v = [B; O] /\ forall b i, b < B -> i < O -> get v [b; i] = smul (get t [b; i]) (get s [b])).
        { eins_open. eexists. split; [reflexivity|]. split; [reflexivity|]. intros. eins_get. eins_sum. }
        destruct G as (v & Ev & Hv & Hg). exists v. split.
        + intros g'. unfold scalar_mul. cbn [a_bond a_ten a_cls]. unfold mbind, lift.
          change (str (chars "bo" ++ chars ",b->" ++ chars "bo")) with "bo,b->bo"%string. rewrite Ev.
          unfold some_atom, mbind. rewrite (init_full K KBase v "bo" B [O] g' Hv) by reflexivity. reflexivity.
        + split; [reflexivity|]. split; [reflexivity|]. split; [cbn [a_ten]; congruence|]. cbn [a_ten].
          intros b i Hi. rewrite E in Hi. apply valid_cons in Hi as (b' & i' & Eb & Hb & Hi). injection Eb as <- <-.
          apply valid_cons in Hi as (x & r2 & -> & Hx & Hn). apply valid_nil in Hn as ->.
          rewrite Hg by assumption. ring.
      - assert (G : exists v, einsum "b,b->b" [t; s] = Ok v /\ shp v = [B] /\ forall b, b < B -> get v [b] = smul (get t [b]) (get s [b])).
        { eins_open. eexists. split; [reflexivity|]. split; [reflexivity|]. intros. eins_get. eins_sum. }
        destruct G as (v & Ev & Hv & Hg). exists v. split.
        + intros g'. unfold scalar_mul. cbn [a_bond a_ten a_cls]. unfold mbind, lift.
          change (str (chars "b" ++ chars ",b->" ++ chars "b")) with "b,b->b"%string. rewrite Ev.
          unfold some_atom, mbind, scalar, ndim. rewrite Hv. cbn [List.length Nat.eqb orb].
          rewrite (init_full K KScalar v "b" B [] g' Hv) by reflexivity. reflexivity.
        + split; [reflexivity|]. split; [reflexivity|]. split; [cbn [a_ten]; congruence|]. cbn [a_ten].
          intros b i Hi. rewrite E in Hi. apply valid_cons in Hi as (b' & i' & Eb & Hb & Hn). injection Eb as <- <-.
          apply valid_nil in Hn as ->.
          rewrite Hg by assumption. ring.
  Qed.
  Theorem C44_scale_partial (a : atom K) (s : tensor K) B r c out : typed a B r c out -> shp s = [B] ->
    a_cls a <> KEdgeVec -> a_cls a <> KOutputMat ->
    forall g, exists x, mul K (Atom (mkA KScalar s "b")) (Atom a) g = (Ok (Atom x), Some B) /\ scaled x a s /\
      exists y, mul K (Atom a) (Atom (mkA KScalar s "b")) g = (Ok (Atom y), Some B) /\ scaled y a s.
  Proof.
    intros Ha Hs N1 N2 g.
    destruct (scalar_main a s B r c out Ha Hs N1 N2) as (t & Em & Hsc).
    exists (mkA (a_cls a) t (a_bond a)). split; [|split; [exact Hsc|]].
    - unfold mul. destruct a as [ka ta ba]. cbn [a_cls a_bond] in *.
      destruct ka; cbn [same_class right_first a_cls]; unfold or_else, mbind; cbn [lmul_method a_cls]; rewrite Em; reflexivity.
    - destruct (a_cls a) eqn:Ek; try congruence.
      all: try (exists (mkA (a_cls a) t (a_bond a)); rewrite <- Ek in Hsc; split; [|exact Hsc];
        destruct a as [ka ta ba]; cbn [a_cls a_bond] in *; subst ka;
        unfold mul; cbn [same_class right_first a_cls]; unfold or_else, mbind;
        cbn [lmul_method rmul_method base_mul region_mul a_cls ret]; rewrite Em; reflexivity).
      (* Scalar * Scalar: the tensors are swapped *)
      inversion Ha; subst; try discriminate Ek.
      destruct (scalar_main (mkA KScalar s "b") t0 B 1 1 None) as (t' & Em' & Hsc'); [constructor; exact Hs|assumption|discriminate|discriminate|].
      exists (mkA KScalar t' "b"). split.
      + unfold mul; cbn [same_class right_first a_cls]; unfold or_else, mbind; cbn [lmul_method a_cls]. rewrite Em'. reflexivity.
      + destruct Hsc' as (E1 & E2 & E3 & E4). cbn [a_ten a_cls a_bond] in *. split; [reflexivity|]. split; [reflexivity|].
        split; [cbn [a_ten]; congruence|]. cbn [a_ten]. intros b i Hi.
        match goal with H : shp t0 = _ |- _ => rewrite H in Hi end. rewrite E4 by (rewrite Hs; exact Hi).
        apply valid_cons in Hi as (b' & i' & Eb & Hb & Hn). injection Eb as <- <-. apply valid_nil in Hn as ->. ring.
  Qed.
End C44.
(** Scalar * EdgeVec, Scalar * OutputMat and the reversed products always raise TypeError
    (the class constructor needs a second argument). *)
Theorem C44_edge_vec_refuted (K : cring) (s v : tensor K) B D (left : bool) g : shp s = [B] -> shp v = [B; D] ->
  let e := mkA KEdgeVec v (if left then "br" else "bl")%string in
  mul K (Atom (mkA KScalar s "b")) (Atom e) g = (Err TypeError, g) /\
  mul K (Atom e) (Atom (mkA KScalar s "b")) g = (Err TypeError, g).
Proof.
  intros Hs Hv e.
  assert (G : exists w : tensor K, scalar_mul K (mkA KScalar s "b") (Atom e) = mbind (lift (Ok w)) (fun _ => raise TypeError)).
  { unfold scalar_mul, e. cbn [a_bond a_ten a_cls]. destruct left.
    - change (str (chars "br" ++ chars ",b->" ++ chars "br")) with "br,b->br"%string.
      assert (X : exists w, einsum "br,b->br" [v; s] = Ok w) by (eins_open; eexists; reflexivity).
      destruct X as (w & ->). exists w. reflexivity.
    - change (str (chars "bl" ++ chars ",b->" ++ chars "bl")) with "bl,b->bl"%string.
      assert (X : exists w, einsum "bl,b->bl" [v; s] = Ok w) by (eins_open; eexists; reflexivity).
      destruct X as (w & ->). exists w. reflexivity. }
  destruct G as (w & Ew).
  split; unfold mul, e; cbn [same_class right_first a_cls]; unfold or_else, mbind; cbn [lmul_method rmul_method edge_mul a_cls ret];
    fold e; rewrite Ew; reflexivity.
Qed.
Theorem C44_output_mat_refuted (K : cring) (s v : tensor K) B D O g : shp s = [B] -> shp v = [B; D; O] ->
  let e := mkA KOutputMat v "blo" in
  mul K (Atom (mkA KScalar s "b")) (Atom e) g = (Err TypeError, g) /\
  mul K (Atom e) (Atom (mkA KScalar s "b")) g = (Err TypeError, g).
Proof.
  intros Hs Hv e. split; [|reflexivity].
  assert (G : exists w, einsum "blo,b->blo" [v; s] = Ok w) by (eins_open; eexists; reflexivity).
  destruct G as (w & Ew).
  unfold mul, e; cbn [same_class right_first a_cls]; unfold or_else, mbind; cbn [lmul_method a_cls].
  unfold scalar_mul. cbn [a_bond a_ten a_cls]. unfold mbind, lift.
  change (str (chars "blo" ++ chars ",b->" ++ chars "blo")) with "blo,b->blo"%string. rewrite Ew. reflexivity.
Qed.
Definition ex_scalar : tensor R_ops := mkT [1] (fun _ => 3%R).
Example C44_case : exists x, mul R_cring (Atom (mkA (S := R_cring) KScalar ex_scalar "b")) (Atom (mkA (S := R_cring) KOutputCore ex_core "bolr")) None
   = (Ok (Atom x), Some 1) /\ get (a_ten x) [0; 1; 1; 1] = 12%R.
Proof.
  destruct (C44_scale_partial R_cring (mkA (S := R_cring) KOutputCore ex_core "bolr") ex_scalar 1 2 2 (Some 2)) with (g := @None nat) as (x & Ex & (_ & _ & _ & Hx) & _).
  - constructor. reflexivity.
  - reflexivity.
  - discriminate.
  - discriminate.
  - exists x. split; [exact Ex|]. rewrite Hx by (repeat constructor; lia). cbn. lra.
Qed.

(** ** C45: no product of a nonempty ContractableList with any contractable works *)
Theorem C45_list_product_refuted (S : sops) (l : list (contr S)) (a : atom S) g : l <> [] ->
  (exists e g', mul S (CList l) (Atom a) g = (Err e, g')) /\ (exists e g', mul S (Atom a) (CList l) g = (Err e, g')).
Proof.
  intros Hl. destruct a as [k t bd].
  assert (R : rev l <> []) by (intros E; apply Hl; rewrite <- (rev_involutive l), E; reflexivity).
  split.
  - destruct (rev l) as [|item r] eqn:E; [congruence|].
    exists (raw_error S item), g. unfold mul. cbn [same_class right_first]. unfold or_else, mbind.
    cbn [lmul_method list_mul]. rewrite E. reflexivity.
  - destruct l as [|item r]; [congruence|].
    destruct k; unfold mul; cbn [same_class right_first a_cls]; unfold or_else, mbind; cbn [lmul_method rmul_method base_mul region_mul outmat_mul edge_mul scalar_mul list_mul a_cls ret raise]; eauto.
Qed.
(** which error: the product of the bare tensor with the item it meets first *)
Theorem C45_error_partial (S : sops) (l : list (contr S)) item (a : atom S) g :
  mul S (CList (l ++ [item])) (Atom a) g =
  (Err (match item with
        | CList _ => AssertionError
        | Atom i => match a_cls i with KScalar => AttributeError | _ => TypeError end
        | Raw _ => TypeError
        end), g).
Proof.
  unfold mul. cbn [same_class right_first]. unfold or_else, mbind.
  cbn [lmul_method list_mul]. rewrite rev_app_distr. destruct item as [i| |]; reflexivity.
Qed.
(** an empty list is not the unit of the product either: it returns a bare tensor *)
Theorem C45_empty_list_partial (S : sops) (a : atom S) g :
  mul S (CList []) (Atom a) g = (Ok (Raw (a_ten a)), g).
Proof. reflexivity. Qed.

Print Assumptions C41_region_reduce.
Print Assumptions C41_sweep_from_left.
Print Assumptions C41_sweep_from_right.
Print Assumptions C42_reduce_in_order.
Print Assumptions C42_parallel_same.
Print Assumptions C44_scale_partial.
Print Assumptions C45_list_product_refuted.
