(** * P_Mps: properties C30-C37 and C60 (torchmps/torchmps.py: MPS without adaptive mode).
    [trained m0 m]: the parameters of the constructed model m0 have got any values of the same
    shapes; [weights_of m]: these values; [train_value], [ring_value]: the contraction, written
    as an ordered product of matrices (TmSpec.v).  [g] is the value that the global batch size
    has when forward is called: it is whatever the earlier calls have left there. *)
From Verif Require Import Base Scalars Tensor Spec LinAlg Contractables Utils TorchMps TmSpec TmProofs TmFinal.

(** no path, or an empty list *)
Definition no_path (p : mpath) : Prop := p = PNone \/ p = PList [].
Lemma no_path_off p : no_path p -> path_true p = Ok false.
Proof. intros [H|H]; rewrite H; reflexivity. Qed.
(** label_site, by default input_dim // 2 *)
Definition label_site (N : nat) (label : option Z) : nat := match label with None => N / 2 | Some z => Z.to_nat z end.
(** The label sites that work: no region may consist of exactly one site. *)
Definition good_label (N lab : nat) : Prop := lab <> 1 /\ N - lab <> 1.

Section Values.
  Variable K : cring.
  Add Ring Kr : (rth K).

  (** the constructor accepts every label site between 0 and input_dim *)
  Theorem C34_constructor N O D F per par label path std ub rnd :
    (match label with None => True | Some z => (0 <= z <= Z.of_nat N)%Z end) ->
    no_path path \/ (exists p, path = PList p /\ List.length p = N) ->
    exists m0, mps_init K N O D F per par label path std ub rnd = Ok m0 /\ trained m0 m0 /\
      m_label m0 = label_site N label.
  Proof.
    intros Hl Hp. unfold mps_init, label_of, label_site. set (l := match label with None => Z.of_nat (N / 2) | Some z => z end).
    assert (El : ((0 <=? l)%Z && (l <=? Z.of_nat N)%Z) = true).
    { assert (Hd : N / 2 <= N) by (apply Nat.div_le_upper_bound; lia). unfold l. destruct label; apply andb_true_intro; split; apply Z.leb_le; lia. }
    rewrite El. cbn [assert_ rbind]. destruct (build_ok K false N O D F (Z.to_nat l) std ub rnd) as (mods & Eb). rewrite Eb. cbn [rbind].
    pose proof (build_form K _ _ _ _ _ _ _ _ _ _ Eb) as Fm.
    assert (Hle : Z.to_nat l <= N) by (apply andb_prop in El as [E1 E2]; apply Z.leb_le in E1, E2; lia).
    rewrite (form_len K _ _ _ _ _ _ _ Hle Fm), Nat.eqb_refl. cbn [assert_ rbind].
    assert (Ec : check_path N path = Ok tt).
    { unfold check_path. destruct Hp as [[H|H]|(p & H & H')]; rewrite H; try reflexivity. cbn [path_true path_list rbind]. destruct (negb _); [|reflexivity]. rewrite H', Nat.eqb_refl. reflexivity. }
    rewrite Ec. cbn [rbind]. eexists. split; [reflexivity|]. split.
    - split; [|reflexivity]. cbn [m_modules].
      destruct Fm as (a & t & r & -> & Ha & _ & Hr).
      assert (R : forall n q, region_list K n D F ub q -> Forall2 mod_trained q q).
      { intros n q. destruct n; cbn [region_list]; [intros ->; constructor|]. intros (m & -> & t' & b & -> & _). constructor; [|constructor].
        destruct b; constructor; reflexivity. }
      apply Forall2_app; [eapply R; exact Ha|]. apply Forall2_app; [|eapply R; exact Hr]. constructor; [constructor; reflexivity|constructor].
    - cbn. unfold l. destruct label; [reflexivity|apply Nat2Z.id].
  Qed.

  Section Model.
    Variables (N O D F : nat) (per par ub : bool) (label : option Z) (path : mpath) (std : K) (rnd : nat -> list nat -> K).
    Variables (m0 m : mps K).
    Hypothesis Hinit : mps_init K N O D F per par label path std ub rnd = Ok m0.
    Hypothesis Htr : trained m0 m.
    Let lab := label_site N label.
    Lemma model_built : built K N O D F per par lab path ub m.
    Proof. eapply init_built; eassumption. Qed.
    Lemma model_label : m_label m = lab. Proof. apply model_built. Qed.

    Lemma forward_value x B g : no_path path -> good_label N lab -> 0 < lab \/ g = Some B ->
      (if per then 1 <= N else 0 < D) -> shp x = [B; N; F] ->
      exists out, mps_forward K m x g = (Ok out, Some B) /\ shp out = [B; O] /\
        forall b o, b < B -> o < O -> get out [b; o] = value K per N lab D F (weights_of m) (fun s i => get x [b; s; i]) o.
    Proof.
      intros Hp (H1 & H2) Hg Hc Hx. pose proof model_built as Hb.
      destruct (region_value K _ _ _ _ _ _ par _ _ _ _ x B g Hb H1 H2 Hg Hc Hx) as (out & Eo & Ho & Go).
      exists out. split; [|split; assumption]. destruct Hb.
      rewrite (mps_forward_eq K m x g x x).
      - rewrite b_per, b_par. exact Eo.
      - apply route_off. rewrite b_path. apply no_path_off. exact Hp.
      - apply mps_embed_pre with (B := B). rewrite b_in, b_feat. exact Hx.
    Qed.
  End Model.

  (** ** C30 *)
  Theorem C30_open_boundary_returns N O D F par label path std ub rnd m0 m x B g :
    mps_init K N O D F false par label path std ub rnd = Ok m0 -> trained m0 m -> no_path path ->
    0 < D -> good_label N (m_label m) -> 0 < m_label m \/ g = Some B -> shp x = [B; N; F] ->
    exists out, mps_forward K m x g = (Ok out, Some B) /\ shp out = [B; O] /\
      forall b o, b < B -> o < O ->
        get out [b; o] = train_value N (m_label m) D F (weights_of m) (fun s i => get x [b; s; i]) o.
  Proof.
    intros Hi Ht Hp HD Hg Hgb Hx. rewrite (model_label _ _ _ _ _ _ _ _ _ _ _ _ _ Hi Ht) in *.
    exact (forward_value _ _ _ _ _ _ _ _ _ _ _ _ _ Hi Ht x B g Hp Hg Hgb HD Hx).
  Qed.
  Theorem C30_label_site N O D F per par label path std ub rnd m0 m :
    mps_init K N O D F per par label path std ub rnd = Ok m0 -> trained m0 m -> m_label m = label_site N label.
  Proof. intros Hi Ht. exact (model_label _ _ _ _ _ _ _ _ _ _ _ _ _ Hi Ht). Qed.
  (** ** C31 *)
  Theorem C31_periodic_boundary_returns N O D F par label path std ub rnd m0 m x B g :
    mps_init K N O D F true par label path std ub rnd = Ok m0 -> trained m0 m -> no_path path ->
    1 <= N -> good_label N (m_label m) -> 0 < m_label m \/ g = Some B -> shp x = [B; N; F] ->
    exists out, mps_forward K m x g = (Ok out, Some B) /\ shp out = [B; O] /\
      forall b o, b < B -> o < O ->
        get out [b; o] = ring_value N (m_label m) D F (weights_of m) (fun s i => get x [b; s; i]) o.
  Proof.
    intros Hi Ht Hp HD Hg Hgb Hx. rewrite (model_label _ _ _ _ _ _ _ _ _ _ _ _ _ Hi Ht) in *.
    exact (forward_value _ _ _ _ _ _ _ _ _ _ _ _ _ Hi Ht x B g Hp Hg Hgb HD Hx).
  Qed.

  (** ** C32: m' is the model m with the other value of parallel_eval *)
  Definition with_parallel (par : bool) (m : mps K) : mps K :=
    mkMps K (m_input m) (m_output m) (m_bond m) (m_feature m) (m_periodic m) par (m_label m) (m_path m) (m_use_bias m) (m_modules m) (m_fmap m).
  Definition with_path (p : mpath) (m : mps K) : mps K :=
    mkMps K (m_input m) (m_output m) (m_bond m) (m_feature m) (m_periodic m) (m_parallel m) (m_label m) p (m_use_bias m) (m_modules m) (m_fmap m).
  Definition with_map (f : option (fmap K)) (m : mps K) : mps K :=
    mkMps K (m_input m) (m_output m) (m_bond m) (m_feature m) (m_periodic m) (m_parallel m) (m_label m) (m_path m) (m_use_bias m) (m_modules m) f.
End Values.
