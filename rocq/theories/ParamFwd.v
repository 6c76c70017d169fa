(** * ParamFwd: related modules and related inputs give related outputs (continues ParamRed) *)
From Verif Require Import Base Scalars Tensor Contractables Utils TorchMps SvdProofs Param EinStr ParamMul ParamRed.

Section ParamFwd.
  Variables (S1 S2 : sops) (G : graded S1 S2) (D F : nat).
  Notation E := (gE G).
  Notation trel := (trel G).
  Notation arel := (arel S1 S2 G D).
  Notation crel := (crel S1 S2 G D).
  Notation lrel := (lrel S1 S2 G D).

  Lemma ein2 (P : ascii -> nat -> Prop) s la lb out sc W k k' (a b : tensor S1) (a' b' : tensor S2) : parse_eins s = ([la; lb], out) ->
    trel k a a' -> trel k' b b' -> sh_all P la (shp a) -> sh_all P lb (shp b) ->
    (forall c, In c la \/ In c lb -> ~ In c out -> c = sc) -> (forall d, P sc d -> d <= W) ->
    rrel (fun u u' => trel (S (k + k') + W) u u' /\ sh_all P out (shp u) /\ List.length (shp u) = List.length out) (einsum s [a; b]) (einsum s [a'; b']).
  Proof.
    intros Hp Ha Hb Pa Pb Hc HW.
    assert (dims_ok : forall dims, add_ops [la; lb] [a; b] [] = Some dims -> NoDup (map fst dims) /\ env_all P dims /\ forall c, In c (map fst dims) -> In c la \/ In c lb).
    { intros dims Hd. cbn [add_ops] in Hd. destruct (add_labels la (shp a) []) as [e1|] eqn:E1; [|discriminate Hd].
      destruct (add_labels lb (shp b) e1) as [e2|] eqn:E2; [|discriminate Hd]. injection Hd as <-.
      destruct (add_labels_props P _ _ _ _ E1) as (A1 & A2 & A3 & _); [constructor|intros ? ? []|exact Pa|].
      destruct (add_labels_props P _ _ _ _ E2) as (B1 & B2 & B3 & _); [exact A1|exact A2|exact Pb|].
      split; [exact B1|]. split; [exact B2|]. intros c I. destruct (B3 c I) as [J|J]; [|right; exact J]. destruct (A3 c J) as [[]|J']. left. exact J'. }
    pose proof (einsum_rel_2 S1 S2 G s la lb out k k' a b a' b' W Hp Ha Hb) as X.
    assert (X0 : forall dims, add_ops [la; lb] [a; b] [] = Some dims -> csum (filter (fun p => negb (inlabels (fst p) out)) dims) <= W).
    { intros dims Hd. destruct (dims_ok dims Hd) as (A & B & C). apply (not_in_out_csum dims out sc W P A B); [|exact HW]. intros c I. apply Hc, C, I. }
    specialize (X X0). apply (rrel_and (Param.trel G (S (k + k') + W)) (fun u => sh_all P out (shp u) /\ List.length (shp u) = List.length out)); [exact X|]. intros u Et. unfold einsum in Et. rewrite Hp in Et.
    destruct (add_ops [la; lb] _ []) as [dims|] eqn:Ed; [|discriminate Et]. destruct (mapopt _ out) as [osh|] eqn:Em; [|discriminate Et]. injection Et as <-. cbn [shp].
    split; [|eapply mapopt_length; exact Em]. destruct (dims_ok dims eq_refl) as (_ & B & _). intros c d I. apply (mapopt_in _ _ _ Em) in I. apply elook_in in I. exact (B c d I).
  Qed.
  Lemma ein1 (P : ascii -> nat -> Prop) s la out sc W k (a : tensor S1) (a' : tensor S2) : parse_eins s = ([la], out) ->
    trel k a a' -> sh_all P la (shp a) -> (forall c, In c la -> ~ In c out -> c = sc) -> (forall d, P sc d -> d <= W) ->
    rrel (trel (k + W)) (einsum s [a]) (einsum s [a']).
  Proof.
    intros Hp Ha Pa Hc HW. apply (einsum_rel_1 _ _ _ _ la out); [exact Hp|exact Ha|]. intros dims Hd.
    destruct (add_labels_props P _ _ _ _ Hd) as (A1 & A2 & A3 & _); [constructor|intros ? ? []|exact Pa|].
    apply (not_in_out_csum dims out sc W P A1 A2); [|exact HW]. intros c I. apply Hc. destruct (A3 c I) as [[]|J]. exact J.
  Qed.
  Lemma tzip_rel k t u t' u' : trel k t t' -> trel k u u' -> shp u = shp t ->
    rrel (fun v v' => trel (S k) v v' /\ shp v = shp t) (tzip sadd t u) (tzip sadd t' u').
  Proof.
    intros [Ht Gt] [Hu Gu] Hs. unfold tzip. rewrite <- Hu, <- Ht, Hs, bcast_refl. cbn [rrel]. split; [|reflexivity]. split; [reflexivity|].
    intros i Hi. cbn [shp get] in *. apply E_add; [apply Gt|apply Gu; rewrite Hs]; apply bproj_length; lia.
  Qed.

  (** ** related modules; kp is the grade of the parameters, kx of the embedded input *)
  Definition optrel (k : nat) (o : option (tensor S1)) (o' : option (tensor S2)) : Prop :=
    match o, o' with Some b, Some b' => trel k b b' | None, None => True | _, _ => False end.
  Inductive modrel (kp : nat) : module S1 -> module S2 -> Prop :=
  | mr_input t t' ub b b' n l r i : trel kp t t' -> shp t = [n; l; r; i] -> l <= D -> r <= D -> i <= F -> optrel kp b b' ->
      modrel kp (InputRegion t ub b) (InputRegion t' ub b')
  | mr_output t t' o l r : trel kp t t' -> shp t = [o; l; r] -> l <= D -> r <= D -> modrel kp (OutputSite t) (OutputSite t')
  | mr_site t t' l r i : trel kp t t' -> shp t = [l; r; i] -> l <= D -> r <= D -> i <= F -> modrel kp (InputSite t) (InputSite t')
  | mr_minput t t' n l r i j : trel kp t t' -> shp t = [n; l; r; i; j] -> l <= D -> r <= D -> i <= F -> j <= F ->
      modrel kp (MergedInput t) (MergedInput t')
  | mr_moutput t t' lo o l r i : trel kp t t' -> shp t = [o; l; r; i] -> l <= D -> r <= D -> i <= F -> modrel kp (MergedOutput t lo) (MergedOutput t' lo).
  Definition modcost (kp kx : nat) (m : module S1) : nat :=
    match m with
    | InputRegion t _ _ => Nat.max 1 (size 0 t) * (kp + kx + F + 2 + 1 + D)
    | OutputSite _ => kp + 1 + D
    | InputSite _ | MergedOutput _ _ => kp + kx + F + 1 + 1 + D
    | MergedInput t => Nat.max 1 (size 0 t) * (kp + 2 * kx + 2 * F + 2 + 1 + D)
    end.
  Lemma modrel_len kp m m' : modrel kp m m' -> mod_len m = mod_len m'.
  Proof. destruct 1 as [? ? ? ? ? ? ? ? ? [H _]| | |? ? ? ? ? ? ? [H _]|]; cbn [mod_len]; unfold size; rewrite ?H; reflexivity. Qed.

  Definition inner (a : atom S1) : Prop := a_cls a <> KScalar /\ a_cls a <> KEdgeVec.
  Lemma mrel_and {A B} (P : A -> B -> Prop) (Q : A -> Prop) m m' : mrel P m m' -> (forall g a, fst (m g) = Ok a -> Q a) -> mrel (fun a b => P a b /\ Q a) m m'.
  Proof. intros H HQ g. destruct (H g) as [R Sg]. split; [|exact Sg]. apply rrel_and; [exact R|]. intros a Ea. exact (HQ g a Ea). Qed.
  Lemma mat_region_ten (t : tensor S1) g a : fst (mat_region S1 t g) = Ok a -> ndim t = 4 -> a_ten a = t.
  Proof.
    intros H Hn. unfold mat_region in H. destruct (_ && _); [|discriminate H]. unfold init in H. rewrite Hn in H.
    destruct (shp t) as [|b sh] eqn:Es; [discriminate H|]. cbn in H. injection H as <-. reflexivity.
  Qed.
  Lemma region_crel k c t t' n : trel k t t' -> List.length (shp t) = 4 -> nth 1 (shp t) 0 = n -> nth 2 (shp t) 0 <= D -> nth 3 (shp t) 0 <= D ->
    Nat.max 1 n * (k + 1 + D) <= c -> mrel (fun a a' => crel c a a' /\ inner a) (mat_region S1 t) (mat_region S2 t').
  Proof.
    intros Ht Hl Hn H2 H3 Hc.
    assert (X : mrel (fun a a' => (arel k a a' /\ a_cls a = KMatRegion) /\ a_ten a = t) (mat_region S1 t) (mat_region S2 t')).
    { apply mrel_and; [apply mat_region_rel; [exact Ht|]|].
      - intros _. destruct (shp t) as [|a [|b [|c0 [|d [|]]]]]; try discriminate Hl. cbn in *. auto.
      - intros g a Ha. apply (mat_region_ten t g a Ha). exact Hl. }
    eapply mrel_impl; [|exact X]. intros a a' ((A & Cl) & Et). split; [|unfold inner; rewrite Cl; split; discriminate].
    exists k. split; [|exact A]. unfold weight. rewrite Cl, Et, Hn. exact Hc.
  Qed.
  Lemma one_crel k c (m : M (atom S1)) (m' : M (atom S2)) cl : mrel (fun a a' => arel k a a' /\ a_cls a = cl) m m' -> cl = KOutputCore \/ cl = KSingleMat -> k + 1 + D <= c ->
    mrel (fun a a' => crel c a a' /\ inner a) m m'.
  Proof.
    intros H Hcl Hc. eapply mrel_impl; [|exact H]. intros a a' (A & Cl). split; [apply (crel_one _ _ _ _ c k); [rewrite Cl; destruct Hcl as [->| ->]; discriminate|exact Hc|exact A]|].
    unfold inner. rewrite Cl. destruct Hcl as [->| ->]; split; discriminate.
  Qed.
  (** label conditions for the subscripts slri, bsi and so on *)
  Definition lab (n : nat) (c : ascii) (d : nat) : Prop :=
    (c = "l"%char \/ c = "r"%char -> d <= D) /\ (c = "i"%char \/ c = "j"%char -> d <= F) /\ (c = "s"%char -> d = n).
  Ltac labs := let c := fresh in let d := fresh in let I := fresh in let Q := fresh in intros c d I; cbn in I;
    repeat (destruct I as [I|I]; [injection I as <- <-; split; [|split]; intros Q; repeat (destruct Q as [Q|Q]); first [discriminate Q|assumption|lia|reflexivity]|]); destruct I.
  Ltac only_sc := let c := fresh in let Hc := fresh in let N := fresh in intros c Hc N; cbn in Hc, N;
    repeat match goal with H : _ \/ _ |- _ => destruct H as [H|H] end; subst; try contradiction; try reflexivity; exfalso; apply N; cbn; tauto.

  Lemma mod_forward_rel kp kx m m' x x' : modrel kp m m' -> trel kx x x' ->
    mrel (fun a a' => crel (modcost kp kx m) a a' /\ inner a) (mod_forward S1 m x) (mod_forward S2 m' x').
  Proof.
    intros Hm Hx. pose proof Hx as [Hsx _].
    destruct Hm as [t t' ub b b' n l r i Ht Es Hl Hr Hi Hb|t t' o l r Ht Es Hl Hr|t t' l r i Ht Es Hl Hr Hi|t t' n l r i j Ht Es Hl Hr Hi Hj|t t' lo o l r i Ht Es Hl Hr Hi];
      pose proof Ht as [Hst _]; cbn [mod_forward mod_len modcost].
    - apply mrel_assert; [unfold ndim; rewrite Hsx; reflexivity|]. intros Nx. apply Nat.eqb_eq in Nx.
      apply mrel_assert; [unfold size; rewrite Hsx, <- Hst; reflexivity|]. intros N1. apply Nat.eqb_eq in N1.
      apply mrel_assert; [unfold size; rewrite Hsx, <- Hst; reflexivity|]. intros N2. apply Nat.eqb_eq in N2.
      unfold size, ndim in Nx, N1, N2. rewrite Es in N1, N2. destruct (shp x) as [|xb [|xn [|xi [|]]]] eqn:Ex; try discriminate Nx. cbn in N1, N2. subst xn xi.
      eapply mrel_bind.
      { apply mrel_lift. apply (ein2 (lab n) _ (chars "slri") (chars "bsi") (chars "bslr") "i"%char F kp kx); [reflexivity|exact Ht|exact Hx|rewrite Es; labs|rewrite Ex; labs|only_sc|].
        intros d Hd. apply Hd. auto. }
      intros u u' (Hu & Lu & Nu).
      eapply (mrel_bind (fun v v' => trel (kp + kx + F + 2) v v' /\ shp v = shp u)).
      { apply mrel_lift. destruct ub; [|split; [eapply trel_mono; [|exact Hu]; lia|reflexivity]].
        unfold optrel in Hb. destruct b as [b|], b' as [b'|]; try contradiction; [|reflexivity].
        rewrite <- (trel_shp _ _ _ _ _ _ Hu). eapply rrel_bind; [apply trel_expand, trel_unsq_front; exact Hb|].
        intros e e' _ _ [He Se]. apply (rrel_impl (fun v v' => trel (S (kp + kx + F + 1)) v v' /\ shp v = shp u)).
        - intros v v' [A B]. split; [eapply trel_mono; [|exact A]; lia|exact B].
        - apply tzip_rel; [eapply trel_mono; [|exact Hu]; lia|eapply trel_mono; [|exact He]; lia|exact Se]. }
      intros v v' [Hv Sv]. rewrite <- Sv in Lu, Nu. cbn in Nu. destruct (shp v) as [|vb [|vn [|vl [|vr [|]]]]] eqn:Ev; try discriminate Nu.
      assert (A1 : lab n "s"%char vn) by (apply Lu; cbn; auto). assert (A2 : lab n "l"%char vl) by (apply Lu; cbn; auto). assert (A3 : lab n "r"%char vr) by (apply Lu; cbn; auto).
      apply (region_crel (kp + kx + F + 2) _ _ _ n); [exact Hv| | | | |]; rewrite ?Ev; cbn [List.length nth]; [reflexivity|apply A1; reflexivity|apply A2; auto|apply A3; auto|].
      unfold size. rewrite Es. cbn [nth]. lia.
    - eapply one_crel; [apply output_core_rel; [exact Ht|]|left; reflexivity|lia]. intros _. rewrite Es. cbn. auto.
    - apply mrel_assert; [unfold ndim; rewrite Hsx; reflexivity|]. intros Nx. apply Nat.eqb_eq in Nx.
      apply mrel_assert; [unfold size; rewrite Hsx, <- Hst; reflexivity|]. intros N1. apply Nat.eqb_eq in N1.
      unfold size, ndim in Nx, N1. rewrite Es in N1. destruct (shp x) as [|xb [|xi [|]]] eqn:Ex; try discriminate Nx. cbn in N1. subst xi.
      eapply mrel_bind.
      { apply mrel_lift. apply (ein2 (lab 0) _ (chars "lri") (chars "bi") (chars "blr") "i"%char F kp kx); [reflexivity|exact Ht|exact Hx|rewrite Es; labs|rewrite Ex; labs|only_sc|].
        intros d Hd. apply Hd. auto. }
      intros v v' (Hv & Lu & Nu). cbn in Nu. destruct (shp v) as [|vb [|vl [|vr [|]]]] eqn:Ev; try discriminate Nu.
      assert (A2 : lab 0 "l"%char vl) by (apply Lu; cbn; auto). assert (A3 : lab 0 "r"%char vr) by (apply Lu; cbn; auto).
      eapply one_crel; [apply single_mat_rel; [exact Hv|]|right; reflexivity|lia]. intros _. rewrite Ev. cbn. split; [apply A2; auto|apply A3; auto].
    - apply mrel_assert; [unfold ndim; rewrite Hsx; reflexivity|]. intros Nx. apply Nat.eqb_eq in Nx.
      apply mrel_assert; [unfold size; rewrite Hsx, <- Hst; reflexivity|]. intros N1. apply Nat.eqb_eq in N1.
      apply mrel_assert; [unfold size; rewrite Hsx, <- Hst; reflexivity|]. intros N2. apply Nat.eqb_eq in N2.
      apply mrel_assert; [unfold size; rewrite Hsx; reflexivity|]. intros _. cbv zeta.
      assert (Zx : size 1 x' = size 1 x) by (unfold size; rewrite Hsx; reflexivity). rewrite Zx. clear Zx.
      unfold size, ndim in Nx, N1, N2. rewrite Es in N1, N2.
      assert (Hodd : forall f, trel kx (sliceE 1 (size 1 x / 2) f x) (sliceE 1 (size 1 x / 2) f x')) by (intros f; apply trel_sliceE; [unfold ndim; lia|exact Hx]).
      assert (Eo : forall f, shp (sliceE 1 (size 1 x / 2) f x) = [nth 0 (shp x) 0; n; i]).
      { intros f. unfold sliceE, size. cbn [shp]. destruct (shp x) as [|xb [|xn [|xi [|]]]] eqn:Ex; try discriminate Nx. cbn [nth] in *. subst xn xi.
        replace (2 * n / 2) with n by (rewrite Nat.mul_comm, Nat.div_mul; lia). reflexivity. }
      set (odd := sliceE 1 (size 1 x / 2) (fun p => 2 * p + 1) x) in *. set (even := sliceE 1 (size 1 x / 2) (fun p => 2 * p) x) in *.
      eapply mrel_bind.
      { apply mrel_lift. apply (ein2 (lab n) _ (chars "slrij") (chars "bsj") (chars "bslri") "j"%char F kp kx); [reflexivity|exact Ht|apply Hodd|rewrite Es; labs|unfold odd; rewrite Eo; labs|only_sc|].
        intros d Hd. apply Hd. auto. }
      intros u u' (Hu & Lu & Nu).
      eapply mrel_bind.
      { apply mrel_lift. apply (ein2 (lab n) _ (chars "bslri") (chars "bsi") (chars "bslr") "i"%char F (S (kp + kx) + F) kx); [reflexivity|exact Hu|apply Hodd|exact Lu|unfold even; rewrite Eo; labs|only_sc|].
        intros d Hd. apply Hd. auto. }
      clear u u' Hu Lu Nu. intros v v' (Hv & Lu & Nu). cbn in Nu. destruct (shp v) as [|vb [|vn [|vl [|vr [|]]]]] eqn:Ev; try discriminate Nu.
      assert (A1 : lab n "s"%char vn) by (apply Lu; cbn; auto). assert (A2 : lab n "l"%char vl) by (apply Lu; cbn; auto). assert (A3 : lab n "r"%char vr) by (apply Lu; cbn; auto).
      apply (region_crel (S (S (kp + kx) + F + kx) + F) _ _ _ n); [exact Hv| | | | |]; rewrite ?Ev; cbn [List.length nth]; [reflexivity|apply A1; reflexivity|apply A2; auto|apply A3; auto|].
      unfold size. rewrite Es. cbn [nth]. apply Nat.mul_le_mono_l. lia.
    - apply mrel_assert; [unfold ndim; rewrite Hsx; reflexivity|]. intros Nx. apply Nat.eqb_eq in Nx.
      apply mrel_assert; [unfold size; rewrite Hsx, <- Hst; reflexivity|]. intros N1. apply Nat.eqb_eq in N1.
      unfold size, ndim in Nx, N1. rewrite Es in N1. destruct (shp x) as [|xb [|xi [|]]] eqn:Ex; try discriminate Nx. cbn in N1. subst xi.
      eapply mrel_bind.
      { apply mrel_lift. apply (ein2 (lab 0) _ (chars "olri") (chars "bi") (chars "bolr") "i"%char F kp kx); [reflexivity|exact Ht|exact Hx|rewrite Es; labs|rewrite Ex; labs|only_sc|].
        intros d Hd. apply Hd. auto. }
      intros v v' (Hv & Lu & Nu). cbn in Nu. destruct (shp v) as [|vb [|vo [|vl [|vr [|]]]]] eqn:Ev; try discriminate Nu.
      assert (A2 : lab 0 "l"%char vl) by (apply Lu; cbn; auto). assert (A3 : lab 0 "r"%char vr) by (apply Lu; cbn; auto).
      eapply one_crel; [apply output_core_rel; [exact Hv|]|left; reflexivity|lia]. intros _. rewrite Ev. cbn. split; [apply A2; auto|apply A3; auto].
  Qed.

  (** ** a list of modules *)
  Definition totcost (kp kx : nat) (mods : list (module S1)) : nat := fold_right (fun m n => modcost kp kx m + n) 0 mods.
  Lemma mods_forward_rel kp kx mods mods' x x' : Forall2 (modrel kp) mods mods' -> trel kx x x' -> ndim x = 3 -> forall ind,
    mrel (fun l l' => lrel (totcost kp kx mods) l l' /\ Forall inner l) (mods_forward S1 mods ind x) (mods_forward S2 mods' ind x').
  Proof.
    intros Hm Hx Hn. induction Hm as [|m m' mods mods' Hm Hms IH]; intros ind; cbn [mods_forward totcost fold_right].
    - apply mrel_ret. split; constructor.
    - rewrite <- (modrel_len _ _ _ Hm). eapply mrel_bind.
      + apply (mod_forward_rel kp kx m m'); [exact Hm|]. destruct (mod_len m =? 1); [apply trel_selE|apply trel_sliceE]; try exact Hx; lia.
      + intros a a' [Ca Ia]. eapply mrel_bind; [apply IH|]. intros l l' [Ll Il]. apply mrel_ret. split; constructor; assumption.
  Qed.
  Lemma inner_ends l : Forall inner l -> ends_ok S1 l.
  Proof.
    intros H _. split; [eapply Forall_impl; [|exact H]; intros a Ha; apply Ha|].
    assert (H' : Forall (fun a : atom S1 => a_cls a <> KEdgeVec) l) by (eapply Forall_impl; [|exact H]; intros a Ha; apply Ha).
    assert (R : forall l : list (atom S1), Forall (fun a => a_cls a <> KEdgeVec) l -> Forall (fun a => a_cls a <> KEdgeVec) (removelast l)).
    { clear. induction l as [|a l IH]; intros H; [exact H|]. inversion H; subst. destruct l; [constructor|]. change (removelast (a :: a0 :: l)) with (a :: removelast (a0 :: l)). constructor; auto. }
    apply R in H'. destruct H'; [constructor|assumption].
  Qed.
  Lemma ends_inner a0 l a1 : Forall inner l -> non_scalar S1 a0 -> non_scalar S1 a1 -> ends_ok S1 (a0 :: l ++ [a1]).
  Proof.
    intros H H0 H1 _. split.
    - constructor; [exact H0|]. apply Forall_app. split; [eapply Forall_impl; [|exact H]; intros a Ha; apply Ha|constructor; [exact H1|constructor]].
    - change (a0 :: l ++ [a1]) with ((a0 :: l) ++ [a1]). rewrite removelast_last. cbn [tl]. eapply Forall_impl; [|exact H]. intros a Ha. apply Ha.
  Qed.

  (** ** trace and end vectors *)
  Lemma trace_rel c a a' : crel c a a' -> rrel (trel (c - 1)) (trace_lr S1 (Atom a)) (trace_lr S2 (Atom a')).
  Proof.
    intros Ca. apply crel_level in Ca as (k & Hk & _ & Bd & Ht & W). cbn [trace_lr]. rewrite <- Bd.
    apply rrel_assert; [reflexivity|]. intros _. set (bs := chars (a_bond a)) in *.
    apply (rrel_impl (trel (k + D))); [intros u u'; apply trel_mono; lia|].
    pose proof (wf_plain _ _ _ _ W) as Hp. pose proof (wf_D _ _ _ _ W) as HD. pose proof (wf_len _ _ _ _ W) as HL. fold bs in Hp, HD, HL.
    set (f := fun c => if is_lr c then "l"%char else c). set (out := filter (fun c => negb (is_lr c)) bs).
    assert (Pf : plain (map f bs)).
    { apply plain_In. intros y I. apply in_map_iff in I as (z & <- & I). rewrite plain_In in Hp. unfold f. destruct (is_lr z); [reflexivity|apply Hp, I]. }
    apply (ein1 (fun c d => c = "l"%char -> d <= D) _ (map f bs) out "l"%char D).
    - apply parse_eins_one. exact Pf.
    - exact Ht.
    - clear -HD HL. revert HD HL. generalize (shp (a_ten a)) as sh. induction bs as [|y bs IH]; intros [|d sh] HD HL; try discriminate HL; [intros ? ? []|].
      intros c0 e [I|I]; [|apply (IH sh); [intros c1 e1 J; apply HD; right; exact J|cbn in HL; congruence|exact I]].
      injection I as <- <-. intros Q. apply (HD y); [left; reflexivity|]. unfold f in Q. destruct (is_lr y) eqn:Ey; [|left; exact Q].
      unfold is_lr in Ey. apply orb_true_iff in Ey as [Ey|Ey]; apply Ascii.eqb_eq in Ey; auto.
    - intros y I N. apply in_map_iff in I as (z & Ez & I). unfold f in Ez. destruct (is_lr z) eqn:Elr; [congruence|]. exfalso. apply N. subst y.
      apply filter_In. split; [exact I|]. rewrite Elr. reflexivity.
    - auto.
  Qed.
  Lemma end_vec_rel c0 a a' c : crel c0 a a' -> (c = "l"%char \/ c = "r"%char) ->
    rrel (fun v v' => trel 0 v v' /\ exists d, shp v = [d] /\ d <= D) (end_vec S1 a c) (end_vec S2 a' c).
  Proof.
    intros Ca Hc. apply crel_level in Ca as (k & Hk & _ & Bd & Ht & W). unfold end_vec. rewrite <- Bd. destruct (index_of c (chars (a_bond a))) as [p|] eqn:Ei; [|reflexivity].
    unfold size. rewrite <- (trel_shp _ _ _ _ _ _ Ht). destruct (_ =? 0); [reflexivity|]. cbn [rrel]. split.
    - split; [reflexivity|]. intros i _. cbn [get]. destruct (nth 0 i 0 =? 0); [apply E_1|apply E_0].
    - exists (nth p (shp (a_ten a)) 0). split; [reflexivity|]. pose proof (wf_D _ _ _ _ W) as HD. pose proof (wf_len _ _ _ _ W) as HL.
      revert p Ei HD HL. generalize (shp (a_ten a)) as sh. induction (chars (a_bond a)) as [|y bs IH]; intros [|d sh] p Ei HD HL; try discriminate HL; [discriminate Ei|].
      cbn [index_of] in Ei. destruct (Ascii.eqb_spec y c) as [->|].
      + injection Ei as <-. apply (HD c); [left; reflexivity|exact Hc].
      + destruct (index_of c bs) as [q|]; cbn [option_map] in Ei; [|discriminate Ei]. injection Ei as <-. cbn [nth]. apply IH; [reflexivity|intros c1 e1 J; apply HD; right; exact J|cbn in HL; congruence].
  Qed.
  Lemma contractable_atoms (S0 : sops) (l : list (atom S0)) : contractable_list S0 (map Atom l) = Ok (CList (map Atom l)).
  Proof. unfold contractable_list. replace (forallb (is_contractable S0) (map Atom l)) with true; [reflexivity|]. symmetry. induction l; cbn; auto. Qed.

  (** torchmps.py:609-688 *)
  Lemma region_forward_rel kp kx mods mods' per par x x' : Forall2 (modrel kp) mods mods' -> trel kx x x' ->
    mrel (trel (totcost kp kx mods + 1 + D)) (region_forward S1 mods per par x) (region_forward S2 mods' per par x').
  Proof.
    intros Hm Hx. unfold region_forward. pose proof Hx as [Hsx _].
    assert (Hlen : region_len S1 mods = region_len S2 mods').
    { clear -Hm. induction Hm as [|m m' l l' H Hl IH]; [reflexivity|]. cbn. rewrite (modrel_len _ _ _ H). unfold region_len in IH. rewrite IH. reflexivity. }
    apply mrel_assert; [unfold ndim; rewrite Hsx; reflexivity|]. intros Nx. apply Nat.eqb_eq in Nx.
    apply mrel_assert; [unfold size; rewrite Hsx, Hlen; reflexivity|]. intros _.
    eapply mrel_bind; [apply (mods_forward_rel kp kx); [exact Hm|exact Hx|exact Nx]|]. intros l l' [Ll Il]. destruct per.
    - rewrite !contractable_atoms. change (mrel (trel (totcost kp kx mods + 1 + D)) (let! z := reduce S1 true (CList (map Atom l)) in lift (trace_lr S1 z)) (let! z := reduce S2 true (CList (map Atom l')) in lift (trace_lr S2 z))).
      eapply mrel_bind; [apply (reduce_rel S1 S2 G D true (totcost kp kx mods)); [exact Ll|apply inner_ends, Il]|]. intros z z' Hz.
      destruct z as [a| |], z' as [a'| |]; try contradiction. apply mrel_lift. eapply rrel_impl; [|apply trace_rel; exact Hz]. intros u u'. apply trel_mono. lia.
    - assert (Rev : match l, rev l, l', rev l' with a0 :: _, a1 :: _, b0 :: _, b1 :: _ => (exists c, crel c a0 b0) /\ (exists c, crel c a1 b1) | [], [], [], [] => True | _, _, _, _ => False end).
      { clear -Ll. destruct Ll as [|c n a a' l l' Ha Hl]; [exact Logic.I|]. assert (L2 : lrel (c + n) (a :: l) (a' :: l')) by (constructor; assumption).
        destruct (rev (a :: l)) as [|z r] eqn:Er; apply (f_equal (@rev _)) in Er; rewrite rev_involutive in Er; [discriminate Er|]. cbn [rev] in Er. rewrite Er in L2.
        destruct (lrel_app_inv _ _ _ _ _ _ _ _ L2) as (c1 & c2 & m1 & m2 & _ & E2 & _ & H2). inversion H2 as [|cz nz ? z' ? ? Hz Hn]; subst. inversion Hn; subst. rewrite E2, rev_app_distr. cbn [rev app].
        split; [exists c; exact Ha|exists cz; exact Hz]. }
      destruct l as [|a0 l]; destruct l' as [|b0 l']; try contradiction.
      { cbn [rev]. apply mrel_raise. }
      { destruct (rev (a0 :: l)); contradiction. }
      destruct (rev (a0 :: l)) as [|a1 r] eqn:Er; [contradiction|]. destruct (rev (b0 :: l')) as [|b1 r'] eqn:Er'; [contradiction|]. destruct Rev as [[ca Ca] [cb Cb]].
      eapply mrel_bind; [apply mrel_lift, (end_vec_rel ca); [exact Ca|auto]|]. intros v0 v0' (Hv0 & d0 & S0 & D0).
      eapply mrel_bind; [apply mrel_lift, (end_vec_rel cb); [exact Cb|auto]|]. intros v1 v1' (Hv1 & d1 & Sv1 & D1).
      eapply mrel_bind; [apply (edge_vec_rel S1 S2 G D 0); [exact Hv0|intros _; rewrite S0; exact D0]|]. intros e0 e0' (He0 & C0).
      eapply mrel_bind; [apply (edge_vec_rel S1 S2 G D 0); [exact Hv1|intros _; rewrite Sv1; exact D1]|]. intros e1 e1' (He1 & C1).
      rewrite !contractable_atoms.
      change (mrel (trel (totcost kp kx mods + 1 + D))
        (let! z := reduce S1 par (CList (map Atom (e0 :: (a0 :: l) ++ [e1]))) in match z with Atom a => ret (a_ten a) | _ => raise AttributeError end)
        (let! z := reduce S2 par (CList (map Atom (e0' :: (b0 :: l') ++ [e1']))) in match z with Atom a => ret (a_ten a) | _ => raise AttributeError end)).
      eapply mrel_bind.
      { apply (reduce_rel S1 S2 G D par ((1 + D) + (totcost kp kx mods + ((1 + D) + 0)))); [|apply ends_inner; [exact Il|unfold non_scalar; rewrite C0; discriminate|unfold non_scalar; rewrite C1; discriminate]].
        constructor; [apply (crel_one _ _ _ _ _ 0); [rewrite C0; discriminate|lia|exact He0]|]. apply lrel_app; [exact Ll|].
        constructor; [apply (crel_one _ _ _ _ _ 0); [rewrite C1; discriminate|lia|exact He1]|constructor]. }
      intros z z' Hz. destruct z as [a| |], z' as [a'| |]; try contradiction. cbn in Hz. apply crel_level in Hz as (k & Hk & _ & _ & Ht & _).
      apply mrel_ret. eapply trel_mono; [|exact Ht]. lia.
  Qed.
End ParamFwd.
