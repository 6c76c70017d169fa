(** * ParamMps: related models and related inputs give related outputs: MPS.forward and TI_MPS.forward (continues ParamFwd) *)
From Verif Require Import Base Scalars Tensor Contractables Utils TorchMps SvdProofs Param EinStr ParamMul ParamRed ParamFwd.

Section ParamMps.
  Variables (S1 S2 : sops) (G : graded S1 S2) (D F : nat).
  Notation E := (gE G).
  Notation trel := (trel G).
  Notation arel := (arel S1 S2 G D).
  Notation crel := (crel S1 S2 G D).
  Notation lrel := (lrel S1 S2 G D).
  Notation modrel := (modrel S1 S2 G D F).
  Notation totcost := (totcost S1 D F).

  (** ** lists of tensors *)
  Lemma rmap_rel {A B A' B'} (P : A -> A' -> Prop) (Q : B -> B' -> Prop) f f' l l' : (forall a a', P a a' -> rrel Q (f a) (f' a')) -> Forall2 P l l' ->
    rrel (Forall2 Q) (rmap f l) (rmap f' l').
  Proof.
    intros H F2. induction F2 as [|a a' l l' Ha Hl IH]; cbn [rmap]; [constructor|]. eapply rrel_bind; [apply H, Ha|]. intros b b' _ _ Hb.
    eapply rrel_bind; [exact IH|]. intros m m' _ _ Hm. cbn [rrel]. constructor; assumption.
  Qed.
  Lemma rmap_rel_same {A B B'} (Q : B -> B' -> Prop) (f : A -> res B) f' l : (forall a, rrel Q (f a) (f' a)) -> rrel (Forall2 Q) (rmap f l) (rmap f' l).
  Proof.
    intros H. apply (rmap_rel eq); [intros a a' <-; apply H|]. induction l; constructor; auto.
  Qed.
  Lemma F2_length {A B} (P : A -> B -> Prop) l l' : Forall2 P l l' -> List.length l = List.length l'.
  Proof. induction 1; cbn; congruence. Qed.
  Lemma F2_nth {A B} (P : A -> B -> Prop) l l' d d' n : Forall2 P l l' -> P d d' -> P (nth n l d) (nth n l' d').
  Proof. intros H Hd. revert n. induction H; intros [|n]; cbn; auto. Qed.
  Lemma same_shapes k ts ts' (t : tensor S1) (t' : tensor S2) : Forall2 (trel k) ts ts' -> shp t = shp t' ->
    forallb (fun u => list_eqb (shp u) (shp t)) ts = forallb (fun u => list_eqb (shp u) (shp t')) ts'.
  Proof. intros H Ht. rewrite <- Ht. induction H as [|a a' l l' [Ha _] Hl IH]; cbn [forallb]; [reflexivity|]. rewrite <- Ha, IH. reflexivity. Qed.
  Lemma stack0_rel k ts ts' : Forall2 (trel k) ts ts' -> rrel (trel k) (stack0 ts) (stack0 ts').
  Proof.
    intros H. destruct H as [|t t' ts ts' Ht Hts]; [reflexivity|]. pose proof Ht as [Hs _]. assert (H : Forall2 (trel k) (t :: ts) (t' :: ts')) by (constructor; assumption).
    unfold stack0. rewrite <- (same_shapes k _ _ _ _ H Hs). destruct (forallb _ _) eqn:Ef; [|reflexivity]. cbn [rrel]. split; cbn [shp get].
    - rewrite (F2_length _ _ _ H), Hs. reflexivity.
    - intros i Hi. pose proof (F2_nth _ _ _ t t' (hd 0 i) H Ht) as [_ X]. apply X.
      assert (Sh : shp (nth (hd 0 i) (t :: ts) t) = shp t).
      { destruct (nth_in_or_default (hd 0 i) (t :: ts) t) as [I|Ed]; [|rewrite Ed; reflexivity].
        rewrite forallb_forall in Ef. specialize (Ef _ I). apply list_eqb_eq in Ef. exact Ef. }
      rewrite Sh. destruct i; cbn in *; lia.
  Qed.
  Lemma stack1_rel k ts ts' : Forall2 (trel k) ts ts' -> rrel (trel k) (stack1 S1 ts) (stack1 S2 ts').
  Proof.
    intros H. destruct H as [|t t' ts ts' Ht Hts]; [reflexivity|]. pose proof Ht as [Hs _]. assert (H : Forall2 (trel k) (t :: ts) (t' :: ts')) by (constructor; assumption).
    unfold stack1. rewrite <- (same_shapes k _ _ _ _ H Hs). unfold ndim. rewrite <- Hs. destruct (forallb _ _) eqn:Ef; [|reflexivity]. cbn [andb].
    destruct (Nat.leb_spec 1 (List.length (shp t))) as [H1|]; [|reflexivity]. cbn [rrel]. split; cbn [shp get].
    - rewrite (F2_length _ _ _ H). reflexivity.
    - intros i Hi. pose proof (F2_nth _ _ _ t t' (nth 1 i 0) H Ht) as [_ X]. apply X.
      assert (Sh : shp (nth (nth 1 i 0) (t :: ts) t) = shp t).
      { destruct (nth_in_or_default (nth 1 i 0) (t :: ts) t) as [I|Ed]; [|rewrite Ed; reflexivity].
        rewrite forallb_forall in Ef. specialize (Ef _ I). apply list_eqb_eq in Ef. exact Ef. }
      rewrite Sh. destruct (shp t) as [|d sh]; [cbn in H1; lia|]. destruct i as [|a [|b i]]; cbn in *; lia.
  Qed.
  Lemma index1_rel k x x' z : trel k x x' -> rrel (trel k) (index1 S1 x z) (index1 S2 x' z).
  Proof.
    intros [Hs Hg]. unfold index1. rewrite <- Hs. destruct (shp x) as [|b [|w r]] eqn:Ex; try reflexivity. destruct (_ && _)%bool; [|reflexivity].
    cbn [rrel]. split; [reflexivity|]. cbn [shp get]. intros i Hi. apply Hg. destruct i; cbn in *; lia.
  Qed.
  Lemma route_rel k p x x' : trel k x x' -> rrel (trel k) (route S1 p x) (route S2 p x').
  Proof.
    intros Hx. unfold route. apply (rrel_bind eq); [destruct (path_true p); reflexivity|]. intros b b' _ _ <-. destruct b; [|exact Hx].
    eapply rrel_bind; [apply rmap_rel_same; intros z; apply index1_rel, Hx|]. intros ts ts' _ _ H. apply stack1_rel, H.
  Qed.

  (** ** the embedding *)
  Definition fmaprel (k ke : nat) (f : fmap S1) (f' : fmap S2) : Prop := forall v v', E k v v' -> rrel (trel ke) (f v) (f' v').
  Lemma embed_map_rel k ke f f' x x' : fmaprel k ke f f' -> trel k x x' -> ndim x = 2 -> rrel (trel ke) (embed_map S1 f x) (embed_map S2 f' x').
  Proof.
    intros Hf [Hs Hg] Hn. unfold embed_map, size. rewrite <- Hs. eapply rrel_bind; [|intros ts ts' _ _ H; apply stack0_rel, H].
    apply rmap_rel_same. intros b. eapply rrel_bind; [|intros ts ts' _ _ H; apply stack0_rel, H]. apply rmap_rel_same. intros n. apply Hf, Hg. unfold ndim in Hn. rewrite Hn. reflexivity.
  Qed.
  Lemma embed_default_rel k ke x x' : k <= ke -> (forall v v', E k v v' -> E ke (ssub s1 v) (ssub s1 v')) -> trel k x x' -> ndim x = 2 ->
    trel ke (embed_default S1 x) (embed_default S2 x').
  Proof.
    intros Hk Hsub [Hs Hg] Hn. split; unfold embed_default, size; cbn [shp get]; [rewrite Hs; reflexivity|]. intros i Hi.
    assert (H : E k (get x [nth 0 i 0; nth 1 i 0]) (get x' [nth 0 i 0; nth 1 i 0])) by (apply Hg; unfold ndim in Hn; rewrite Hn; reflexivity).
    destruct (nth 2 i 0 =? 0); [eapply E_mono; [exact Hk|exact H]|apply Hsub, H].
  Qed.
  (** the grade of the embedded input *)
  Definition elevel (k ke : nat) (three : bool) (f : option (fmap S1)) (f' : option (fmap S2)) : Prop :=
    if three then k <= ke else match f, f' with Some f, Some f' => fmaprel k ke f f' | None, None => k <= ke /\ (forall v v', E k v v' -> E ke (ssub s1 v) (ssub s1 v')) | _, _ => False end.

  (** ** MPS.forward *)
  Record mpsrel (kp : nat) (m : mps S1) (m' : mps S2) : Prop := mkMpsrel {
    mr_in : m_input m = m_input m'; mr_feat : m_feature m = m_feature m'; mr_per : m_periodic m = m_periodic m'; mr_par : m_parallel m = m_parallel m';
    mr_path : m_path m = m_path m'; mr_mods : Forall2 (modrel kp) (m_modules m) (m_modules m') }.
  Lemma mps_embed_rel k ke kp m m' x x' : mpsrel kp m m' -> trel k x x' -> elevel k ke (ndim x =? 3) (m_fmap m) (m_fmap m') ->
    rrel (trel ke) (mps_embed S1 m x) (mps_embed S2 m' x').
  Proof.
    intros Hm Hx He. pose proof Hx as [Hs _]. unfold mps_embed, ndim, size in *. rewrite <- Hs, <- (mr_in _ _ _ Hm), <- (mr_feat _ _ _ Hm).
    apply rrel_assert; [reflexivity|]. intros N23. apply orb_true_iff in N23. rewrite !Nat.eqb_eq in N23. apply rrel_assert; [reflexivity|]. intros _.
    destruct (Nat.eqb_spec (List.length (shp x)) 3) as [N3|N3]; cbn [elevel] in He.
    - destruct (nth 2 (shp x) 0 =? m_feature m); [|reflexivity]. cbn [rrel]. eapply trel_mono; [exact He|exact Hx].
    - assert (N2 : ndim x = 2) by (unfold ndim; destruct N23; [assumption|contradiction]).
      destruct (m_fmap m) as [f|], (m_fmap m') as [f'|]; try contradiction.
      + eapply rrel_bind; [eapply embed_map_rel; [exact He|exact Hx|exact N2]|]. intros e e' _ _ Hee. rewrite <- (proj1 Hee). apply rrel_assert; [reflexivity|]. intros _. exact Hee.
      + destruct (_ =? 2); [|reflexivity]. cbn [rrel]. destruct He as [He Hsub]. eapply embed_default_rel; [exact He|exact Hsub|exact Hx|exact N2].
  Qed.
  Lemma index1_ndim x z u : index1 S1 x z = Ok u -> S (ndim u) = ndim x.
  Proof.
    unfold index1, ndim. destruct (shp x) as [|b [|w r]]; try discriminate. destruct (_ && _)%bool; [|discriminate]. intros [= <-]. reflexivity.
  Qed.
  Lemma route_ndim p x y : route S1 p x = Ok y -> ndim y = ndim x.
  Proof.
    unfold route. destruct (path_true p) as [b|]; [|discriminate]. cbn [rbind]. destruct b; [|intros [= <-]; reflexivity].
    destruct (rmap (index1 S1 x) (path_list p)) as [ts|] eqn:Er; [|discriminate]. cbn [rbind]. destruct ts as [|t ts]; [discriminate|].
    destruct (path_list p) as [|z zs]; [discriminate Er|]. cbn [rmap] in Er. destruct (index1 S1 x z) as [u|] eqn:Ei; [|discriminate Er]. cbn [rbind] in Er.
    destruct (rmap (index1 S1 x) zs) as [us|]; [|discriminate Er]. injection Er as <- <-. apply index1_ndim in Ei.
    unfold stack1. destruct (forallb _ _ && (1 <=? ndim u)) eqn:Eb; [|discriminate]. apply andb_true_iff in Eb as [_ H1]. apply Nat.leb_le in H1. intros [= <-]. unfold ndim in *. cbn [shp].
    destruct (shp u); cbn in *; lia.
  Qed.
  Theorem mps_forward_rel k ke kp m m' x x' : mpsrel kp m m' -> trel k x x' -> elevel k ke (ndim x =? 3) (m_fmap m) (m_fmap m') ->
    mrel (trel (totcost kp ke (m_modules m) + 1 + D)) (mps_forward S1 m x) (mps_forward S2 m' x').
  Proof.
    intros Hm Hx He. unfold mps_forward. rewrite <- (mr_path _ _ _ Hm).
    eapply mrel_bind; [apply mrel_lift; apply rrel_and; [apply route_rel, Hx|intros a Ha; exact (route_ndim _ _ _ Ha)]|]. intros y y' [Hy Ny].
    eapply mrel_bind; [apply mrel_lift; eapply mps_embed_rel; [exact Hm|exact Hy|rewrite Ny; exact He]|]. intros e e' Hee.
    rewrite <- (mr_per _ _ _ Hm), <- (mr_par _ _ _ Hm). apply region_forward_rel; [apply (mr_mods _ _ _ Hm)|exact Hee].
  Qed.

  (** ** TI_MPS.forward *)
  Record tirel (kp : nat) (m : ti_mps S1) (m' : ti_mps S2) : Prop := mkTirel {
    tr_out : t_output m = t_output m'; tr_bond : t_bond m = t_bond m'; tr_feat : t_feature m = t_feature m'; tr_par : t_parallel m = t_parallel m';
    tr_ub : t_use_bias m = t_use_bias m'; tr_fb : t_fixed_bias m = t_fixed_bias m';
    tr_core : trel kp (t_core m) (t_core m'); tr_vec : trel kp (t_vec m) (t_vec m'); tr_mat : trel kp (t_mat m) (t_mat m');
    tr_bias : optrel S1 S2 G kp (t_bias m) (t_bias m');
    tr_D : t_bond m <= D; tr_F : t_feature m <= F;
    tr_vd : ndim (t_vec m) = 1 \/ ndim (t_vec m) = 2 -> dimE 0 (shp (t_vec m)) <= D;
    tr_md : ndim (t_mat m) = 2 \/ ndim (t_mat m) = 3 -> dimE 1 (shp (t_mat m)) <= D }.
  Inductive inrel (k : nat) : ti_input S1 -> ti_input S2 -> Prop :=
  | ir_tensor x x' : trel k x x' -> inrel k (TTensor x) (TTensor x')
  | ir_list l l' : Forall2 (trel k) l l' -> inrel k (TList l) (TList l').
  (** raw inputs are embedded, the others not *)
  Definition is_embedded (i : ti_input S1) : bool := match i with TTensor x => negb (ndim x =? 2) | TList l => match l with [] => true | s :: _ => negb (ndim s =? 1) end end.
  Lemma ti_embed_rel k ke kp m m' x x' : tirel kp m m' -> trel k x x' -> elevel k ke false (t_fmap m) (t_fmap m') ->
    rrel (trel ke) (ti_embed S1 m x) (ti_embed S2 m' x').
  Proof.
    intros Hm Hx He. pose proof Hx as [Hs _]. unfold ti_embed, ndim, size in *. rewrite <- Hs, <- (tr_feat _ _ _ Hm).
    apply rrel_assert; [reflexivity|]. intros N2. apply Nat.eqb_eq in N2. cbn [elevel] in He.
    destruct (t_fmap m) as [f|], (t_fmap m') as [f'|]; try contradiction.
    - eapply rrel_bind; [eapply embed_map_rel; [exact He|exact Hx|exact N2]|]. intros e e' _ _ Hee. rewrite <- (proj1 Hee). apply rrel_assert; [reflexivity|]. intros _. exact Hee.
    - destruct (_ =? 2); [|reflexivity]. cbn [rrel]. destruct He as [He Hsub]. eapply embed_default_rel; [exact He|exact Hsub|exact Hx|exact N2].
  Qed.
  Lemma pad_rel k nm ml f l l' : Forall2 (trel k) l l' -> nm <= 2 -> forallb (fun s => ndim s =? nm) l = true -> trel k (pad_batch S1 nm ml f l) (pad_batch S2 nm ml f l').
  Proof.
    intros H Hn Hf. unfold pad_batch. split; cbn [shp get]; [rewrite (F2_length _ _ _ H); reflexivity|]. intros i Hi.
    pose proof (F2_nth (trel k) l l' (tconst [] s0) (tconst [] s0) (nth 0 i 0) H) as X.
    assert (X0 : trel k (tconst [] s0) (tconst [] s0)) by (split; [reflexivity|intros; cbn [get tconst]; eapply E_mono; [|apply E_0]; lia]). specialize (X X0). destruct X as [Xs Xg].
    unfold size. rewrite <- Xs. destruct (Nat.ltb_spec (nth 1 i 0) (nth 0 (shp (nth (nth 0 i 0) l (tconst [] s0))) 0)) as [Hlt|]; [|eapply E_mono; [|apply E_0]; lia].
    apply Xg. destruct (nth_in_or_default (nth 0 i 0) l (tconst [] s0)) as [I|Ed]; [|rewrite Ed in Hlt; cbn in Hlt; lia].
    rewrite forallb_forall in Hf. specialize (Hf _ I). apply Nat.eqb_eq in Hf. unfold ndim in Hf. rewrite Hf.
    rewrite firstn_length in Hi. cbn [List.length] in Hi. destruct i; cbn [tl List.length] in *; lia.
  Qed.
  Lemma ti_format_rel k ke kp m m' i i' : tirel kp m m' -> inrel k i i' -> elevel k ke (is_embedded i) (t_fmap m) (t_fmap m') ->
    rrel (trel ke) (ti_format S1 m i) (ti_format S2 m' i').
  Proof.
    intros Hm Hi He. destruct Hi as [x x' Hx|l l' Hl]; cbn [ti_format is_embedded] in *.
    - pose proof Hx as [Hs _]. eapply (rrel_bind (trel ke)).
      + unfold ndim in *. rewrite <- Hs. destruct (List.length (shp x) =? 2); cbn [negb] in He; [eapply ti_embed_rel; eassumption|]. cbn [rrel]. eapply trel_mono; [exact He|exact Hx].
      + intros y y' _ _ Hy. pose proof Hy as [Hsy _]. unfold ndim, size. rewrite <- Hsy, <- (tr_feat _ _ _ Hm). apply rrel_assert; [reflexivity|]. intros _. apply rrel_assert; [reflexivity|]. intros _. exact Hy.
    - destruct Hl as [|s s' l l' Hs Hl]; [reflexivity|]. assert (H : Forall2 (trel k) (s :: l) (s' :: l')) by (constructor; assumption). pose proof Hs as [Hss _].
      assert (Nd : ndim s' = ndim s) by (unfold ndim; rewrite Hss; reflexivity). rewrite Nd. rewrite <- (tr_feat _ _ _ Hm), <- (tr_ub _ _ _ Hm), <- (tr_fb _ _ _ Hm).
      assert (B : forall p : list nat -> bool, forallb (fun t => p (shp t)) (s :: l) = forallb (fun t => p (shp t)) (s' :: l')).
      { intros p. clear -H. induction H as [|a a' q q' [Ha _] Hq IH]; cbn [forallb]; [reflexivity|]. rewrite Ha, IH. reflexivity. }
      assert (Bx : forall p : list nat -> bool, existsb (fun t => p (shp t)) (s :: l) = existsb (fun t => p (shp t)) (s' :: l')).
      { intros p. clear -H. induction H as [|a a' q q' [Ha _] Hq IH]; cbn [existsb]; [reflexivity|]. rewrite Ha, IH. reflexivity. }
      assert (Ml : map (size 0) (s :: l) = map (size 0) (s' :: l')).
      { clear -H. induction H as [|a a' q q' [Ha _] Hq IH]; cbn [map]; [reflexivity|]. unfold size at 1 3. rewrite Ha, IH. reflexivity. }
      rewrite <- Ml.
      apply rrel_assert; [reflexivity|]. intros N12. apply rrel_assert; [exact (B (fun sh => List.length sh =? ndim s))|]. intros Fa.
      apply rrel_assert; [f_equal; exact (B (fun sh => nth 1 sh 0 =? t_feature m))|]. intros _. cbv zeta.
      set (ml := fold_right Nat.max 0 (map (size 0) (s :: l))).
      replace (existsb (fun t => negb (size 0 t =? ml)) (s' :: l')) with (existsb (fun t => negb (size 0 t =? ml)) (s :: l)) by exact (Bx (fun sh => negb (nth 0 sh 0 =? ml))).
      destruct (negb (t_use_bias m && t_fixed_bias m) && _); [reflexivity|].
      assert (N2 : ndim s = 1 \/ ndim s = 2) by (apply orb_true_iff in N12 as [Q|Q]; apply Nat.eqb_eq in Q; auto).
      eapply (rrel_bind (fun b b' => trel k b b' /\ ndim b = S (ndim s))).
      + destruct (t_use_bias m && t_fixed_bias m).
        * cbn [rrel]. split; [apply pad_rel; [exact H|lia|exact Fa]|]. unfold ndim at 1, pad_batch. cbn [shp]. rewrite firstn_length. cbn [List.length]. lia.
        * apply rrel_and; [apply stack0_rel, H|]. intros b Eb. unfold stack0 in Eb. destruct (forallb (fun t => list_eqb (shp t) (shp s)) (s :: l)); [|discriminate Eb]. injection Eb as <-. reflexivity.
      + intros b b' _ _ [Hb Nb]. assert (Nb' : ndim b' = ndim b) by (unfold ndim; rewrite (proj1 Hb); reflexivity). rewrite Nb', Nb.
        destruct (Nat.eqb_spec (S (ndim s)) 2) as [Q|Q]; replace (ndim s =? 1) with (S (ndim s) =? 2) in He by reflexivity.
        * rewrite Q in He. eapply ti_embed_rel; eassumption.
        * apply Nat.eqb_neq in Q. rewrite Q in He. cbn [negb elevel] in He. cbn [rrel]. eapply trel_mono; [exact He|exact Hb].
  Qed.
  Lemma input_region_rel kp t t' ub b b' n l r i : trel kp t t' -> shp t = [n; l; r; i] -> l <= D -> r <= D -> i <= F -> optrel S1 S2 G kp b b' ->
    rrel (fun m m' => modrel kp m m' /\ exists t0 b0, m = InputRegion t0 ub b0 /\ size 0 t0 = n) (input_region S1 t ub b) (input_region S2 t' ub b').
  Proof.
    intros Ht Es Hl Hr Hi Hb. pose proof Ht as [Hs _]. unfold input_region, ndim, size. rewrite <- Hs.
    apply rrel_assert; [reflexivity|]. intros _. apply rrel_assert; [reflexivity|]. intros _. destruct ub.
    - set (c := match b with None => _ | Some b => b end). set (c' := match b' with None => _ | Some b => b end).
      assert (Hc : trel kp c c').
      { unfold c, c', optrel in *. destruct b, b'; try contradiction; [exact Hb|]. apply trel_unsq_front. split; [reflexivity|]. intros j _. cbn [eye2 get].
        destruct (_ =? _); (eapply E_mono; [|apply E_1 || apply E_0]; lia). }
      rewrite <- (proj1 Hc). apply rrel_assert; [reflexivity|]. intros _. cbn [rrel]. split.
      + apply (mr_input _ _ _ _ _ _ t t' true _ _ n l r i); try assumption. cbn [optrel]. destruct (_ =? 2); [apply trel_unsq_front, Hc|exact Hc].
      + eexists t, _. split; [reflexivity|]. rewrite Es. reflexivity.
    - cbn [rrel]. split; [apply (mr_input _ _ _ _ _ _ t t' false b b' n l r i); assumption|]. exists t, b. split; [reflexivity|]. rewrite Es. reflexivity.
  Qed.
  Definition ticost (kp ke n : nat) : nat := Nat.max 1 n * (kp + ke + F + 2 + 1 + D) + 2 * kp + 1 + D.
  Theorem ti_forward_rel k ke kp n m m' i i' : tirel kp m m' -> inrel k i i' -> elevel k ke (is_embedded i) (t_fmap m) (t_fmap m') ->
    (forall y, ti_format S1 m i = Ok y -> size 1 y <= n) ->
    mrel (trel (ticost kp ke n)) (ti_forward S1 m i) (ti_forward S2 m' i').
  Proof.
    intros Hm Hi He Hn. unfold ti_forward.
    rewrite <- (tr_out _ _ _ Hm), <- (tr_bond _ _ _ Hm), <- (tr_feat _ _ _ Hm), <- (tr_par _ _ _ Hm), <- (tr_ub _ _ _ Hm).
    eapply mrel_bind; [apply mrel_lift; apply rrel_and; [eapply ti_format_rel; eassumption|exact Hn]|]. intros x x' [Hx Nx]. pose proof Hx as [Hsx _].
    replace (size 0 x') with (size 0 x) by (unfold size; rewrite Hsx; reflexivity). replace (size 1 x') with (size 1 x) by (unfold size; rewrite Hsx; reflexivity). cbv zeta.
    eapply mrel_bind; [apply mrel_lift, trel_expand; exact (tr_core _ _ _ Hm)|]. intros core core' [Hc Sc].
    eapply mrel_bind; [apply mrel_lift; eapply input_region_rel; [exact Hc|exact Sc|exact (tr_D _ _ _ Hm)|exact (tr_D _ _ _ Hm)|exact (tr_F _ _ _ Hm)|exact (tr_bias _ _ _ Hm)]|].
    intros md md' [Hmd (t0 & b0 & Emd & St0)].
    eapply mrel_bind; [apply mod_forward_rel; [exact Hmd|exact Hx]|]. intros r r' [Cr Ir].
    eapply mrel_bind; [apply (edge_vec_rel S1 S2 G D kp); [exact (tr_vec _ _ _ Hm)|exact (tr_vd _ _ _ Hm)]|]. intros v v' [Av Cv].
    eapply mrel_bind; [apply (output_mat_rel S1 S2 G D kp); [exact (tr_mat _ _ _ Hm)|exact (tr_md _ _ _ Hm)]|]. intros o o' [Ao Co].
    rewrite !contractable_atoms. set (f1 := fun z : contr S1 => match z with Atom a => _ | _ => _ end). set (f2 := fun z : contr S2 => match z with Atom a => _ | _ => _ end).
    change (mrel (trel (ticost kp ke n)) (let! z := reduce S1 (t_parallel m) (CList (map Atom [v; r; o])) in f1 z) (let! z := reduce S2 (t_parallel m) (CList (map Atom [v'; r'; o'])) in f2 z)).
    set (cr := modcost S1 D F kp ke md) in *.
    eapply mrel_bind.
    { apply (reduce_rel S1 S2 G D (t_parallel m) ((kp + 1 + D) + (cr + ((kp + 1 + D) + 0)))).
      - constructor; [apply (crel_one _ _ _ _ _ kp); [rewrite Cv; discriminate|lia|exact Av]|]. constructor; [exact Cr|].
        constructor; [apply (crel_one _ _ _ _ _ kp); [rewrite Co; discriminate|lia|exact Ao]|constructor].
      - intros _. split.
        + constructor; [unfold non_scalar; rewrite Cv; discriminate|]. constructor; [apply Ir|]. constructor; [unfold non_scalar; rewrite Co; discriminate|constructor].
        + cbn [removelast tl]. constructor; [apply Ir|constructor]. }
    intros z z' Hz. destruct z as [a| |], z' as [a'| |]; try contradiction. cbn in Hz. apply crel_level in Hz as (q & Hq & _ & Bd & Ht & _). unfold f1, f2. rewrite <- Bd.
    apply mrel_assert; [reflexivity|]. intros _. unfold size. rewrite <- (proj1 Ht). apply mrel_assert; [reflexivity|]. intros _. apply mrel_assert; [reflexivity|]. intros _.
    apply mrel_ret. eapply trel_mono; [|exact Ht]. unfold ticost. assert (Hcr : cr <= Nat.max 1 n * (kp + ke + F + 2 + 1 + D)).
    { unfold cr. rewrite Emd. cbn [modcost]. rewrite St0. apply Nat.mul_le_mono_r. lia. }
    lia.
  Qed.
End ParamMps.
