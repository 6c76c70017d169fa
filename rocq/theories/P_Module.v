(** * P_Module: which parameters a model has (C21) and register_feature_map (C59) *)
From Verif Require Import Base NnModule.

(** ** Facts about dictionaries and parameters() *)
Lemma dedup_In l seen p : In p (dedup l seen) <-> In p l /\ ~ In p seen.
Proof.
  revert seen; induction l as [|x l IH]; intros seen; cbn [dedup In]; [tauto|].
  destruct (existsb (Nat.eqb x) seen) eqn:E.
  - apply existsb_exists in E as (y & Hy & Exy). apply Nat.eqb_eq in Exy. subst y.
    rewrite IH. split; [tauto|]. intros [[->|H] Hn]; [contradiction|tauto].
  - assert (Hx : ~ In x seen).
    { intros Hx. apply Bool.not_true_iff_false in E. apply E. apply existsb_exists. exists x. split; [exact Hx|apply Nat.eqb_refl]. }
    cbn [In]. rewrite IH. cbn [In]. destruct (Nat.eq_dec x p) as [->|Hne]; tauto.
Qed.
Lemma parameters_In m p : In p (parameters m) <-> In p (all_params m).
Proof. unfold parameters. rewrite dedup_In. cbn. tauto. Qed.
Definition mods_params (ms : list (string * option pymod)) : list nat :=
  flat_map (fun q => match snd q with Some s => all_params s | None => [] end) ms.
Lemma all_params_eq ps ms d : all_params (PyMod ps ms d) = own_params ps ++ mods_params ms.
Proof.
  reflexivity.
Qed.
Lemma has_put_other {A} n k (v : A) d : n <> k -> has n (put k v d) = has n d.
Proof.
  intros H. induction d as [|[k' w] d IH]; cbn [put has existsb fst].
  - destruct (String.eqb_spec n k); [contradiction|reflexivity].
  - destruct (String.eqb_spec k k') as [->|]; cbn [has existsb fst].
    + reflexivity.
    + unfold has in IH. rewrite IH. reflexivity.
Qed.
Lemma put_fresh {A} n (v : A) d : has n d = false -> put n v d = d ++ [(n, v)].
Proof.
  induction d as [|[k w] d IH]; cbn [put has existsb fst app]; [reflexivity|].
  destruct (String.eqb_spec n k); [discriminate|]. intros H. rewrite IH by exact H. reflexivity.
Qed.
Lemma put_last {A} n (v w : A) d : has n d = false -> put n v (d ++ [(n, w)]) = d ++ [(n, v)].
Proof.
  induction d as [|[k u] d IH]; cbn [put has existsb fst app]; [rewrite String.eqb_refl; reflexivity|].
  destruct (String.eqb_spec n k); [discriminate|]. intros H. rewrite IH by exact H. reflexivity.
Qed.
Lemma has_app_last {A} n (w : A) d : has n (d ++ [(n, w)]) = true.
Proof. unfold has. rewrite existsb_app. cbn. rewrite String.eqb_refl. apply orb_true_r. Qed.
Lemma lookup_put {A} n (v : A) d : lookup n (put n v d) = Some v.
Proof.
  induction d as [|[k w] d IH]; cbn [put lookup]; [rewrite String.eqb_refl; reflexivity|].
  destruct (String.eqb_spec n k) as [->|Hne]; cbn [lookup].
  - rewrite String.eqb_refl; reflexivity.
  - destruct (String.eqb_spec n k); [contradiction|exact IH].
Qed.
Lemma lookup_remove {A} n (d : list (string * A)) : lookup n (remove n d) = None.
Proof.
  induction d as [|[k w] d IH]; cbn [remove filter fst]; [reflexivity|].
  destruct (String.eqb_spec n k); cbn [negb lookup]; [exact IH|].
  destruct (String.eqb_spec n k); [contradiction|exact IH].
Qed.
Lemma lookup_fresh {A} n (d : list (string * A)) : has n d = false -> lookup n d = None.
Proof.
  induction d as [|[k w] d IH]; cbn [has existsb fst lookup]; [reflexivity|].
  destruct (String.eqb n k); [discriminate|exact IH].
Qed.
Lemma lookup_app_last {A} n (w : A) d : has n d = false -> lookup n (d ++ [(n, w)]) = Some w.
Proof.
  induction d as [|[k u] d IH]; cbn [has existsb fst lookup app]; [rewrite String.eqb_refl; reflexivity|].
  destruct (String.eqb n k); [discriminate|exact IH].
Qed.

(** ** C21 *)
(** *** Refuted, for every module: no parameter of the module passed to TrainableEmbedding
    is among the parameters of the embedding, nor (unless it is one of the MPS tensors
    themselves) of the ProbMPS / ProbUnifMPS that uses it: only the MPS tensors are. *)
Theorem C21_trainable_not_registered_refuted (f : pymod) (dom lam core edge cplx : nat) (bias : option nat) :
  exists e m, trainable_embedding_obj (VModule f) dom lam = Ok e /\ parameters e = [] /\
    prob_mps_obj core edge bias cplx (Some e) = Ok m /\
    (forall p, In p (parameters m) <-> p = core \/ p = edge \/ bias = Some p) /\
    (forall p, In p (parameters f) -> p <> core -> p <> edge -> bias <> Some p -> ~ In p (parameters m)).
Proof.
  assert (H : exists m, prob_mps_obj core edge bias cplx
       (Some (PyMod [] [] [("domain"%string, Some dom); ("emb_fun"%string, Some lam)])) = Ok m /\
       all_params m = core :: edge :: (match bias with Some b => [b] | None => [] end)).
  { destruct bias; eexists; (split; [reflexivity|reflexivity]). }
  destruct H as (m & Em & Hp). eexists. exists m. split; [reflexivity|]. split; [reflexivity|]. split; [exact Em|].
  assert (Hiff : forall p, In p (parameters m) <-> p = core \/ p = edge \/ bias = Some p).
  { intros p. rewrite parameters_In, Hp. cbn [In]. destruct bias as [b|]; cbn [In].
    - split; [intros [->|[->|[->|[]]]]; auto|intros [->|[->|E]]; auto; injection E as ->; auto].
    - split; [intros [->|[->|[]]]; auto|intros [->|[->|E]]; auto; discriminate]. }
  split; [exact Hiff|]. intros p _ H1 H2 H3 Hin. apply Hiff in Hin. intuition.
Qed.
(** *** What holds: a Module given to FixedEmbedding (directly, or through the embed_fun
    argument of the model) does have all its parameters registered.
    Missing with respect to C21: TrainableEmbedding (see above). *)
Theorem C21_module_registered_partial (f : pymod) (dom np dim lamb core edge cplx : nat) (bias : option nat) :
  exists e m, fixed_embedding_obj (VModule f) dom np dim lamb = Ok e /\
    prob_mps_obj core edge bias cplx (Some e) = Ok m /\
    (forall p, In p (parameters e) <-> In p (parameters f)) /\
    (forall p, In p (parameters m) <-> p = core \/ p = edge \/ bias = Some p \/ In p (parameters f)).
Proof.
  assert (H : exists m, prob_mps_obj core edge bias cplx
       (Some (PyMod [] [("emb_fun"%string, Some f)] [("domain"%string, Some dom); ("num_points"%string, Some np); ("emb_dim"%string, Some dim); ("lamb_mat"%string, Some lamb)])) = Ok m /\
       all_params m = core :: edge :: (match bias with Some b => [b] | None => [] end) ++ all_params f).
  { destruct bias; eexists; (split; [reflexivity|]); cbn; rewrite ?app_nil_r; reflexivity. }
  destruct H as (m & Em & Hp). eexists. exists m. split; [reflexivity|]. split; [exact Em|]. split.
  - intros p. rewrite !parameters_In. cbn. rewrite app_nil_r. tauto.
  - intros p. rewrite !parameters_In, Hp. cbn [In]. rewrite in_app_iff. destruct bias as [b|]; cbn [In].
    + split; [intros [->|[->|[[->|[]]|H]]]; auto|intros [->|[->|[E|H]]]; auto; injection E as ->; auto].
    + split; [intros [->|[->|[[]|H]]]; auto|intros [->|[->|[E|H]]]; auto; discriminate].
Qed.

(** ** C59 *)
(** an acceptable argument: None, or a plain function / Module whose output on 0 is a
    vector of size feature_dim *)
Definition acceptable (d : nat) (a : option fmap_arg) : Prop :=
  match a with
  | None => True
  | Some f => fm_shape f = Some [d] /\ (match fm_val f with VPlain _ | VModule _ => True | _ => False end)
  end.
Definition arg_value (a : option fmap_arg) : value := match a with None => VNone | Some f => fm_val f end.
Definition is_module (a : option fmap_arg) : bool := match arg_value a with VModule _ => true | _ => false end.
Definition is_plain (a : option fmap_arg) : bool := match arg_value a with VPlain _ => true | _ => false end.
(** the object after a sequence of calls; a call that raises leaves it unchanged *)
Definition after_calls (check : bool) (d : nat) (m : pymod) (h : list (option fmap_arg)) : pymod :=
  fold_left (fun m a => match register_feature_map check d m a with Ok m' => m' | Err _ => m end) h m.
(** what the calls of a history do: a plain function after a Module is refused *)
Fixpoint outcome (seen : bool) (cur : value) (h : list (option fmap_arg)) : bool * value :=
  match h with
  | [] => (seen, cur)
  | a :: h' => if is_plain a && seen then outcome seen cur h'
               else outcome (seen || is_module a) (arg_value a) h'
  end.
(** a model object whose feature_map was set to None by its constructor *)
Definition ready (m : pymod) : Prop :=
  match m with PyMod ps ms d => has "feature_map" ps = false /\ has "feature_map" ms = false /\ lookup "feature_map"%string d = Some None end.

Section C59.
  Variables (check : bool) (d : nat).
  Variables (ps : list (string * option nat)) (ms : list (string * option pymod)).
  Hypothesis Hps : has "feature_map" ps = false.
  Hypothesis Hms : has "feature_map" ms = false.
  Definition inv (m : pymod) (seen : bool) (cur : value) : Prop :=
    exists dict, (seen = false /\ m = PyMod ps ms dict /\
          ((cur = VNone /\ lookup "feature_map"%string dict = Some None) \/ (exists t, cur = VPlain t /\ lookup "feature_map"%string dict = Some (Some t)))) \/
      (seen = true /\ lookup "feature_map"%string dict = None /\
          ((cur = VNone /\ m = PyMod ps (ms ++ [("feature_map"%string, None)]) dict) \/
           (exists s, cur = VModule s /\ m = PyMod ps (ms ++ [("feature_map"%string, Some s)]) dict))).
  Lemma inv_getattr m seen cur : inv m seen cur -> getattr m "feature_map" = Ok cur.
  Proof.
    intros (dict & [(-> & -> & [(-> & Hl)|(t & -> & Hl)])|(-> & Hl & [(-> & ->)|(s & -> & ->)])]);
      cbn [getattr]; rewrite Hl; try reflexivity; rewrite (lookup_fresh _ ps Hps), (lookup_app_last _ _ ms Hms); reflexivity.
  Qed.
  Lemma inv_params m seen cur p : inv m seen cur ->
    (In p (parameters m) <-> In p (own_params ps ++ mods_params ms) \/ match cur with VModule s => In p (parameters s) | _ => False end).
  Proof.
    intros (dict & [(-> & -> & [(-> & Hl)|(t & -> & Hl)])|(-> & Hl & [(-> & ->)|(s & -> & ->)])]); rewrite parameters_In, all_params_eq.
    - tauto.
    - tauto.
    - unfold mods_params. rewrite flat_map_app. cbn. rewrite app_nil_r. tauto.
    - unfold mods_params. rewrite flat_map_app. cbn [flat_map snd]. rewrite app_nil_r, parameters_In, !in_app_iff. tauto.
  Qed.
  Lemma inv_step m seen cur a : inv m seen cur -> acceptable d a ->
    if is_plain a && seen then register_feature_map check d m a = Err TypeError
    else exists m', register_feature_map check d m a = Ok m' /\ inv m' (seen || is_module a) (arg_value a).
  Proof.
    intros Hi Ha. unfold register_feature_map.
    assert (Hset : if is_plain a && seen then setattr m "feature_map" (arg_value a) = Err TypeError
       else exists m', setattr m "feature_map" (arg_value a) = Ok m' /\ inv m' (seen || is_module a) (arg_value a)).
    { assert (Hv : match arg_value a with VParam _ => False | _ => True end).
      { destruct a as [f|]; cbn in *; [|exact I]. destruct Ha as [_ Ha]. destruct (fm_val f); auto. }
      unfold is_plain, is_module. destruct (arg_value a) as [|t|p|s]; [| |contradiction|].
      - cbn [andb orb]. rewrite orb_false_r.
        destruct Hi as (dict & [(-> & -> & _)|(-> & Hl & Hc)]).
        + cbn [setattr]. rewrite Hps, Hms. eexists. split; [reflexivity|]. eexists. left. split; [reflexivity|]. split; [reflexivity|].
          left. split; [reflexivity|apply lookup_put].
        + assert (E : exists o, m = PyMod ps (ms ++ [("feature_map"%string, o)]) dict) by (destruct Hc as [(_ & ->)|(s & _ & ->)]; eauto).
          destruct E as (o & ->). cbn [setattr]. rewrite Hps, has_app_last, (put_last _ _ _ ms Hms). eexists. split; [reflexivity|].
          exists dict. right. auto.
      - cbn [andb]. destruct Hi as (dict & [(-> & -> & _)|(-> & Hl & Hc)]).
        + cbn [orb]. cbn [setattr]. rewrite Hps, Hms. eexists. split; [reflexivity|]. eexists. left. split; [reflexivity|]. split; [reflexivity|].
          right. exists t. split; [reflexivity|apply lookup_put].
        + assert (E : exists o, m = PyMod ps (ms ++ [("feature_map"%string, o)]) dict) by (destruct Hc as [(_ & ->)|(s & _ & ->)]; eauto).
          destruct E as (o & ->). cbn [setattr]. rewrite Hps, has_app_last. reflexivity.
      - cbn [andb]. rewrite orb_true_r. destruct Hi as (dict & [(-> & -> & _)|(-> & Hl & Hc)]).
        + cbn [setattr]. rewrite Hps, (put_fresh _ _ ms Hms). eexists. split; [reflexivity|].
          exists (remove "feature_map" dict). right. split; [reflexivity|]. split; [apply lookup_remove|]. right. eauto.
        + assert (E : exists o, m = PyMod ps (ms ++ [("feature_map"%string, o)]) dict) by (destruct Hc as [(_ & ->)|(s' & _ & ->)]; eauto).
          destruct E as (o & ->). cbn [setattr]. rewrite Hps, (put_last _ _ _ ms Hms). eexists. split; [reflexivity|].
          exists (remove "feature_map" dict). right. split; [reflexivity|]. split; [apply lookup_remove|]. right. eauto. }
    destruct a as [f|]; [|exact Hset]. cbn in Ha. destruct Ha as [Hsh _]. rewrite Hsh, list_eqb_refl. exact Hset.
  Qed.
  Lemma inv_run h m seen cur : inv m seen cur -> (forall a, In a h -> acceptable d a) ->
    let (s', c') := outcome seen cur h in inv (after_calls check d m h) s' c'.
  Proof.
    revert m seen cur. induction h as [|a h IH]; intros m seen cur Hi Ha; [exact Hi|].
    cbn [outcome after_calls fold_left]. pose proof (inv_step m seen cur a Hi (Ha a (or_introl eq_refl))) as Hs.
    destruct (is_plain a && seen).
    - rewrite Hs. apply IH; [exact Hi|intros; apply Ha; right; assumption].
    - destruct Hs as (m' & -> & Hi'). apply IH; [exact Hi'|intros; apply Ha; right; assumption].
  Qed.
End C59.
Lemma outcome_seen h seen cur : fst (outcome seen cur h) = seen || existsb is_module h.
Proof.
  revert seen cur. induction h as [|a h IH]; intros seen cur; cbn [outcome existsb].
  - rewrite orb_false_r. reflexivity.
  - destruct (is_plain a && seen) eqn:E.
    + rewrite IH. apply andb_true_iff in E as [_ ->]. reflexivity.
    + rewrite IH, orb_assoc. reflexivity.
Qed.
Lemma outcome_last h a seen cur : (is_plain a = true -> existsb is_module h = false /\ seen = false) ->
  snd (outcome seen cur (h ++ [a])) = arg_value a.
Proof.
  revert seen cur. induction h as [|b h IH]; intros seen cur Ha; cbn [app outcome].
  - destruct (is_plain a) eqn:E; [destruct (Ha eq_refl) as [_ ->]|]; reflexivity.
  - destruct (is_plain b && seen) eqn:E.
    + apply IH. intros H. destruct (Ha H) as [H1 H2]. cbn in H1. apply orb_false_iff in H1 as [_ H1]. auto.
    + apply IH. intros H. destruct (Ha H) as [H1 H2]. cbn in H1. apply orb_false_iff in H1 as [H0 H1]. subst seen. auto.
Qed.
(** *** C59, what holds: for every history [h] of acceptable calls on a fresh model (MPS or
    TI_MPS), the next acceptable call [a] succeeds, except exactly when it registers a plain
    function and [h] contains a Module; when it succeeds, the embedding used is [a], and
    the parameters are those of the model and those of [a].
    Missing: the excepted case, in which the code raises TypeError (so C59 is false as stated). *)
Theorem C59_register_exact_partial (check : bool) (d : nat) (m : pymod) (h : list (option fmap_arg)) (a : option fmap_arg) :
  ready m -> (forall b, In b h -> acceptable d b) -> acceptable d a ->
  if is_plain a && existsb is_module h
  then register_feature_map check d (after_calls check d m h) a = Err TypeError
  else exists m', register_feature_map check d (after_calls check d m h) a = Ok m' /\
    getattr m' "feature_map" = Ok (arg_value a) /\
    forall p, In p (parameters m') <->
      In p (parameters m) \/ match arg_value a with VModule s => In p (parameters s) | _ => False end.
Proof.
  intros Hr Hh Ha. destruct m as [ps ms dict]. destruct Hr as (Hps & Hms & Hl).
  assert (H0 : inv ps ms (PyMod ps ms dict) false VNone) by (exists dict; left; auto).
  pose proof (inv_run check d ps ms Hps Hms h _ _ _ H0 Hh) as Hrun.
  pose proof (outcome_seen h false VNone) as Hseen.
  destruct (outcome false VNone h) as [s c]. cbn [fst] in Hseen. cbn [orb] in Hseen. subst s.
  pose proof (inv_step check d ps ms Hps Hms _ _ _ a Hrun Ha) as Hs.
  destruct (is_plain a && existsb is_module h); [exact Hs|].
  destruct Hs as (m' & E & Hi). exists m'. split; [exact E|]. split; [apply (inv_getattr ps ms Hps Hms _ _ _ Hi)|].
  intros p. rewrite (inv_params ps ms _ _ _ p Hi). rewrite parameters_In, all_params_eq. tauto.
Qed.
(** *** C59 refuted: a plain function cannot be registered after a Module *)
Theorem C59_plain_after_module_refuted (check : bool) (d : nat) (m : pymod) (s : pymod) (t : nat) :
  ready m ->
  exists m1, register_feature_map check d m (Some (mkFM (VModule s) (Some [d]))) = Ok m1 /\
    register_feature_map check d m1 (Some (mkFM (VPlain t) (Some [d]))) = Err TypeError /\
    (** not even after resetting the map to None *)
    exists m2, register_feature_map check d m1 None = Ok m2 /\
      register_feature_map check d m2 (Some (mkFM (VPlain t) (Some [d]))) = Err TypeError.
Proof.
  intros Hr. destruct m as [ps ms dict]. destruct Hr as (Hps & Hms & Hl).
  unfold register_feature_map. cbn [fm_shape fm_val]. rewrite list_eqb_refl. cbn [setattr]. rewrite Hps.
  eexists. split; [reflexivity|]. cbn [setattr]. rewrite Hps, (put_fresh _ _ ms Hms), has_app_last. split; [reflexivity|].
  eexists. split; [reflexivity|]. cbn [setattr]. rewrite Hps, (put_last _ _ _ ms Hms), has_app_last. reflexivity.
Qed.
(** *** Non-vacuity: an MPS-like object with a submodule, after its constructor *)
Definition sample_mps : pymod :=
  PyMod [] [("linear_region"%string, Some (PyMod [("tensor"%string, Some 7)] [] []))] [("input_dim"%string, Some 3)].
Example C59_hyps_met :
  (exists m, with_default_map sample_mps = Ok m /\ ready m /\ parameters m = [7]) /\
  acceptable 2 (Some (mkFM (VModule (PyMod [("w"%string, Some 9)] [] [])) (Some [2]))).
Proof. split; [eexists; split; [reflexivity|split; [repeat split|reflexivity]]|split; [reflexivity|exact I]]. Qed.
Print Assumptions C21_trainable_not_registered_refuted.
Print Assumptions C21_module_registered_partial.
Print Assumptions C59_register_exact_partial.
Print Assumptions C59_plain_after_module_refuted.
