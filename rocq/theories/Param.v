(** * Param: the forward passes of MPS and TI_MPS in two arithmetics at once.
    The model of the code is written for arbitrary scalars ([sops]).  Here it is run over two scalar structures,
    whose numbers are related by a graded relation [E k] (think: "k roundings apart"), and the two runs are followed
    step by step: both raise the same exception, or both return tensors of the same shape whose entries are related,
    with a grade that is computed from the sizes.  No laws of arithmetic are used. *)
From Verif Require Import Base Scalars Tensor Contractables Utils TorchMps SvdProofs.

(** ** the environment of an einsum *)
(** sum of the contracted sizes *)
Definition csum (e : env) : nat := fold_right (fun p n => snd p + n) 0 e.
Lemma bdim_P (P : ascii -> nat -> Prop) c a b m : bdim a b = Some m -> P c a -> P c b -> P c m.
Proof.
  unfold bdim. destruct (a =? b); [intros [= <-]; auto|]. destruct (a =? 1); [intros [= <-]; auto|].
  destruct (b =? 1); [intros [= <-]; auto|discriminate].
Qed.
Definition env_all (P : ascii -> nat -> Prop) (e : env) : Prop := forall c d, In (c, d) e -> P c d.
Definition sh_all (P : ascii -> nat -> Prop) (ls : labels) (sh : list nat) : Prop := forall c d, In (c, d) (combine ls sh) -> P c d.
Lemma elook_in c e d : elook c e = Some d -> In (c, d) e.
Proof.
  induction e as [|[c' n] e IH]; cbn [elook]; [discriminate|]. destruct (Ascii.eqb_spec c c') as [->|]; [intros [= <-]; left; reflexivity|].
  intros H. right. apply IH, H.
Qed.
Lemma elook_none c e : elook c e = None -> ~ In c (map fst e).
Proof.
  induction e as [|[c' n] e IH]; cbn [elook map fst In]; [auto|]. destruct (Ascii.eqb_spec c c') as [->|N]; [discriminate|].
  intros H [->|I]; [contradiction|]. exact (IH H I).
Qed.
Lemma elook_some c e d : elook c e = Some d -> In c (map fst e).
Proof. intros H. apply elook_in in H. exact (in_map fst _ _ H). Qed.
Lemma eset_keys c m e : In c (map fst e) -> map fst (eset c m e) = map fst e.
Proof.
  induction e as [|[c' n] e IH]; cbn [eset map fst In]; [intros []|]. destruct (Ascii.eqb_spec c c') as [->|N]; [reflexivity|].
  intros [->|H]; [contradiction|]. cbn [map fst]. rewrite IH by exact H. reflexivity.
Qed.
Lemma eset_in c m e c' d : In (c', d) (eset c m e) -> (c', d) = (c, m) \/ In (c', d) e.
Proof.
  induction e as [|[c2 n] e IH]; cbn [eset In].
  - intros [H|[]]. left. congruence.
  - destruct (Ascii.eqb_spec c c2) as [->|N]; cbn [In]; intros [H|H]; auto. destruct (IH H); auto.
Qed.
Lemma add_labels_props (P : ascii -> nat -> Prop) ls : forall sh e e', add_labels ls sh e = Some e' ->
  NoDup (map fst e) -> env_all P e -> sh_all P ls sh ->
  NoDup (map fst e') /\ env_all P e' /\ (forall c, In c (map fst e') -> In c (map fst e) \/ In c ls) /\ List.length sh = List.length ls.
Proof.
  induction ls as [|c ls IH]; intros [|d sh] e e' H Hn Hp Hs; cbn [add_labels] in H; try discriminate H.
  - injection H as <-. auto 6.
  - assert (Hs' : sh_all P ls sh) by (intros a b Hi; apply Hs; right; exact Hi).
    assert (Hd : P c d) by (apply Hs; left; reflexivity).
    destruct (elook c e) as [d'|] eqn:El.
    + destruct (bdim d' d) as [m|] eqn:Eb; [|discriminate H]. specialize (IH sh (eset c m e) e' H).
      assert (K : map fst (eset c m e) = map fst e) by (apply eset_keys; eapply elook_some; exact El).
      rewrite K in IH. destruct IH as (A & B & C & L); [exact Hn| |exact Hs'|].
      { intros a b Hi. apply eset_in in Hi as [[= -> ->]|Hi]; [|apply Hp, Hi]. eapply (bdim_P P); [exact Eb| |exact Hd]. apply Hp, elook_in, El. }
      split; [exact A|]. split; [exact B|]. split; [|cbn; lia]. intros c' Hc'. destruct (C c' Hc'); auto. right. right. assumption.
    + destruct (IH sh (e ++ [(c, d)]) e' H) as (A & B & C & L).
      { rewrite map_app. cbn [map fst]. apply elook_none in El. apply NoDup_rev in Hn. rewrite <- (rev_involutive (map fst e ++ [c])).
        apply NoDup_rev. rewrite rev_app_distr. cbn. constructor; [|exact Hn]. rewrite <- in_rev. exact El. }
      { intros a b Hi. apply in_app_or in Hi as [Hi|[[= <- <-]|[]]]; [apply Hp, Hi|exact Hd]. }
      { exact Hs'. }
      split; [exact A|]. split; [exact B|]. split; [|cbn; lia]. intros c' Hc'. destruct (C c' Hc') as [I|I]; [|right; right; exact I].
      rewrite map_app in I. apply in_app_or in I as [I|[<-|[]]]; [left; exact I|right; left; reflexivity].
Qed.
Lemma add_labels_len ls : forall sh e e', add_labels ls sh e = Some e' -> List.length sh = List.length ls.
Proof.
  induction ls as [|c ls IH]; intros [|d sh] e e' H; cbn [add_labels] in H; try discriminate H; [reflexivity|].
  destruct (elook c e) as [d'|]; [destruct (bdim d' d); [|discriminate H]|]; cbn; rewrite (IH _ _ _ H); reflexivity.
Qed.
Lemma add_ops_1 {A} ls (t : tensor A) lss ts e : add_ops (ls :: lss) (t :: ts) e = match add_labels ls (shp t) e with Some e' => add_ops lss ts e' | None => None end.
Proof. reflexivity. Qed.
(** at most one contracted label *)
Lemma csum_one (e : env) (c : ascii) D : NoDup (map fst e) -> (forall a d, In (a, d) e -> a = c /\ d <= D) -> csum e <= D.
Proof.
  destruct e as [|[a d] [|[a' d'] e]]; intros Hn H; cbn [csum fold_right snd]; [lia| |].
  - destruct (H a d); [left; reflexivity|]. lia.
  - exfalso. destruct (H a d) as [-> _]; [left; reflexivity|]. destruct (H a' d') as [-> _]; [right; left; reflexivity|].
    cbn [map fst] in Hn. inversion Hn as [|? ? X]; subst. apply X. left. reflexivity.
Qed.
Lemma NoDup_filter_keys (f : ascii * nat -> bool) (e : env) : NoDup (map fst e) -> NoDup (map fst (filter f e)).
Proof.
  induction e as [|p e IH]; cbn [filter map]; intros H; [constructor|]. inversion H as [|? ? N H']; subst.
  destruct (f p); [|apply IH, H']. cbn [map]. constructor; [|apply IH, H'].
  intros I. apply N. apply in_map_iff in I as (q & Eq & I). apply filter_In in I as [I _]. rewrite <- Eq. apply in_map, I.
Qed.
Lemma inlabels_spec c l : inlabels c l = true <-> In c l.
Proof.
  unfold inlabels. rewrite existsb_exists. split.
  - intros (x & I & Ex). apply Ascii.eqb_eq in Ex. subst. exact I.
  - intros I. exists c. split; [exact I|apply Ascii.eqb_refl].
Qed.
Lemma mapopt_in {A B} (f : A -> option B) l : forall m, mapopt f l = Some m -> forall a b, In (a, b) (combine l m) -> f a = Some b.
Proof.
  induction l as [|x l IH]; intros m H a b I; cbn [mapopt] in H; [injection H as <-; destruct I|].
  destruct (f x) eqn:Ex; [|discriminate H]. destruct (mapopt f l) eqn:Em; [|discriminate H]. injection H as <-.
  destruct I as [[= -> ->]|I]; [exact Ex|]. apply (IH _ eq_refl _ _ I).
Qed.
Lemma mapopt_length {A B} (f : A -> option B) l : forall m, mapopt f l = Some m -> List.length m = List.length l.
Proof.
  induction l as [|x l IH]; intros m H; cbn [mapopt] in H; [injection H as <-; reflexivity|].
  destruct (f x); [|discriminate H]. destruct (mapopt f l) eqn:Em; [|discriminate H]. injection H as <-. cbn. rewrite (IH _ eq_refl). reflexivity.
Qed.

(** ** related results *)
Section Results.
  Context {A B : Type}.
  Definition rrel (P : A -> B -> Prop) (r : res A) (r' : res B) : Prop :=
    match r, r' with Ok a, Ok b => P a b | Err e, Err e' => e = e' | _, _ => False end.
  Definition mrel (P : A -> B -> Prop) (m : M A) (m' : M B) : Prop :=
    forall g, rrel P (fst (m g)) (fst (m' g)) /\ snd (m g) = snd (m' g).
  Lemma rrel_impl (P Q : A -> B -> Prop) r r' : (forall a b, P a b -> Q a b) -> rrel P r r' -> rrel Q r r'.
  Proof. intros H. destruct r, r'; cbn; auto. Qed.
  Lemma mrel_impl (P Q : A -> B -> Prop) m m' : (forall a b, P a b -> Q a b) -> mrel P m m' -> mrel Q m m'.
  Proof. intros H Hm g. destruct (Hm g) as [R S]. split; [eapply rrel_impl; eauto|exact S]. Qed.
  Lemma mrel_ret (P : A -> B -> Prop) a b : P a b -> mrel P (ret a) (ret b).
  Proof. intros H g. split; [exact H|reflexivity]. Qed.
  Lemma mrel_raise (P : A -> B -> Prop) e : mrel P (raise e) (raise e).
  Proof. intros g. split; reflexivity. Qed.
  Lemma mrel_lift (P : A -> B -> Prop) r r' : rrel P r r' -> mrel P (lift r) (lift r').
  Proof. intros H g. split; [exact H|reflexivity]. Qed.
  Lemma mrel_try (P : A -> B -> Prop) m m' h h' : mrel P m m' -> mrel P h h' -> mrel P (try_type m h) (try_type m' h').
  Proof.
    intros Hm Hh g. unfold try_type. destruct (Hm g) as [R S]. destruct (m g) as [[a|e] g1], (m' g) as [[b|e'] g2]; cbn [fst snd rrel] in *; try contradiction; subst.
    - split; [exact R|reflexivity].
    - destruct e'; try (split; reflexivity). apply Hh.
  Qed.
End Results.
Lemma rrel_bind {A B A' B'} (P : A -> B -> Prop) (Q : A' -> B' -> Prop) r r' k k' :
  rrel P r r' -> (forall a b, r = Ok a -> r' = Ok b -> P a b -> rrel Q (k a) (k' b)) -> rrel Q (rbind r k) (rbind r' k').
Proof. intros H Hk. destruct r, r'; cbn in *; try contradiction; auto. Qed.
Lemma mrel_bind {A B A' B'} (P : A -> B -> Prop) (Q : A' -> B' -> Prop) m m' k k' :
  mrel P m m' -> (forall a b, P a b -> mrel Q (k a) (k' b)) -> mrel Q (mbind m k) (mbind m' k').
Proof.
  intros H Hk g. unfold mbind. destruct (H g) as [R S]. destruct (m g) as [[a|e] g1], (m' g) as [[b|e'] g2]; cbn [fst snd rrel] in *; try contradiction; subst.
  - apply Hk, R.
  - split; reflexivity.
Qed.
Lemma mrel_assert {A' B'} (Q : A' -> B' -> Prop) b b' k k' : b = b' -> (b = true -> mrel Q k k') ->
  mrel Q (mbind (lift (assert_ b)) (fun _ => k)) (mbind (lift (assert_ b')) (fun _ => k')).
Proof. intros <- H. destruct b; [|intros g; split; reflexivity]. intros g. exact (H eq_refl g). Qed.
Lemma rrel_assert {A' B'} (Q : A' -> B' -> Prop) b b' k k' : b = b' -> (b = true -> rrel Q k k') ->
  rrel Q (rbind (assert_ b) (fun _ => k)) (rbind (assert_ b') (fun _ => k')).
Proof. intros <- H. destruct b; [exact (H eq_refl)|reflexivity]. Qed.

(** ** related numbers *)
Record graded (S1 S2 : sops) := mkGraded {
  gE : nat -> S1 -> S2 -> Prop;
  E_mono : forall k k' x y, k <= k' -> gE k x y -> gE k' x y;
  E_0 : gE 0 s0 s0;
  E_1 : gE 0 s1 s1;
  E_add : forall k x y x' y', gE k x y -> gE k x' y' -> gE (S k) (sadd x x') (sadd y y');
  E_mul : forall k k' x y x' y', gE k x y -> gE k' x' y' -> gE (S (k + k')) (smul x x') (smul y y') }.
Arguments gE {S1 S2}. Arguments E_mono {S1 S2}. Arguments E_0 {S1 S2}. Arguments E_1 {S1 S2}. Arguments E_add {S1 S2}. Arguments E_mul {S1 S2}.

Section Param.
  Variables (S1 S2 : sops) (G : graded S1 S2).
  Notation E := (gE G).
  Notation E_mono := (E_mono G).
  Notation E_0 := (E_0 G).
  Notation E_add := (E_add G).
  Notation E_mul := (E_mul G).

  Lemma E_bsum n : forall k f f', (forall i, E k (f i) (f' i)) -> E (k + n) (bsum n f) (bsum n f').
  Proof.
    induction n as [|n IH]; intros k f f' H; cbn [bsum]; [eapply E_mono; [|exact E_0]; lia|].
    replace (k + S n) with (S (k + n)) by lia. apply E_add; [apply IH, H|eapply E_mono; [|apply H]; lia].
  Qed.
  Lemma E_sumover cs : forall k f f', (forall e, E k (f e) (f' e)) -> forall e, E (k + csum cs) (sumover cs f e) (sumover cs f' e).
  Proof.
    induction cs as [|[c d] cs IH]; intros k f f' H e; cbn [sumover csum fold_right snd]; [rewrite Nat.add_0_r; apply H|].
    fold (csum cs). replace (k + (d + csum cs)) with ((k + csum cs) + d) by lia. apply E_bsum. intros i. apply IH, H.
  Qed.

  Definition trel (k : nat) (t : tensor S1) (t' : tensor S2) : Prop := shp t = shp t' /\ forall i, List.length i = List.length (shp t) -> E k (get t i) (get t' i).
  Lemma trel_mono k k' t t' : k <= k' -> trel k t t' -> trel k' t t'.
  Proof. intros H [A B]. split; [exact A|]. intros i Hi. eapply E_mono; [exact H|apply B, Hi]. Qed.

  (** *** einsum with one and with two operands; W bounds the sum of the contracted sizes *)
  Lemma eval1_rel k ls t t' e e0 e1 : trel k t t' -> add_labels ls (shp t) e0 = Some e1 -> E k (eval1 ls t e) (eval1 ls t' e).
  Proof.
    intros [Hs Hg] Ha. unfold eval1. rewrite <- Hs. apply Hg. apply add_labels_len in Ha. clear -Ha. revert Ha. generalize (shp t) as sh.
    induction ls as [|c ls IH]; intros [|d sh] H; cbn in *; try discriminate H; [reflexivity|]. rewrite IH by congruence. reflexivity.
  Qed.
  Lemma einsum_rel_1 s ls out k (t : tensor S1) (t' : tensor S2) W : parse_eins s = ([ls], out) -> trel k t t' ->
    (forall dims, add_labels ls (shp t) [] = Some dims -> csum (filter (fun p => negb (inlabels (fst p) out)) dims) <= W) ->
    rrel (trel (k + W)) (einsum s [t]) (einsum s [t']).
  Proof.
    intros Hp Ht HW. pose proof Ht as [Hs _]. unfold einsum. rewrite Hp. cbn [add_ops]. rewrite <- Hs. destruct (add_labels ls (shp t) []) as [dims|] eqn:Ed; [|reflexivity].
    destruct (mapopt _ out); [|reflexivity]. cbn [rrel]. split; [reflexivity|]. intros i _. cbn [get].
    eapply E_mono; [|apply (E_sumover _ k)]; [specialize (HW dims eq_refl); lia|]. intros e. cbn [evalops]. eapply eval1_rel; eassumption.
  Qed.
  Lemma einsum_rel_2 s la lb out k k' (a b : tensor S1) (a' b' : tensor S2) W : parse_eins s = ([la; lb], out) -> trel k a a' -> trel k' b b' ->
    (forall dims, add_ops [la; lb] [a; b] [] = Some dims -> csum (filter (fun p => negb (inlabels (fst p) out)) dims) <= W) ->
    rrel (trel (S (k + k') + W)) (einsum s [a; b]) (einsum s [a'; b']).
  Proof.
    intros Hp Ha Hb HW. pose proof Ha as [Hs _]. pose proof Hb as [Hs' _]. unfold einsum. rewrite Hp. cbn [add_ops] in *. rewrite <- Hs, <- Hs'.
    destruct (add_labels la (shp a) []) as [e1|] eqn:E1; [|reflexivity]. destruct (add_labels lb (shp b) e1) as [dims|] eqn:E2; [|reflexivity].
    destruct (mapopt _ out); [|reflexivity]. cbn [rrel]. split; [reflexivity|]. intros i _. cbn [get].
    eapply E_mono; [|apply (E_sumover _ (S (k + k')))]; [specialize (HW dims eq_refl); lia|]. intros e. cbn [evalops].
    apply E_mul; eapply eval1_rel; eassumption.
  Qed.
End Param.
Arguments trel {S1 S2}.
