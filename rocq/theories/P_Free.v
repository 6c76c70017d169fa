(** * P_Free: properties C96-C99, which hold because MPS.forward and TI_MPS.forward only add and multiply:
    C96 exceptions, shapes and the remembered batch size depend on shapes only; C97 forward commutes with every
    homomorphism of the numbers; C98 forward is differentiable; C99 forward is monotone on numbers >= 0. *)
From Coq Require Import Reals Lra.
From Verif Require Import Base Scalars Tensor Spec Contractables Utils TorchMps TmSpec FloatSpec Param EinStr ParamMul ParamRed ParamFwd ParamMps.

(** every tensor of the model has the number of axes that belongs to its kind *)
Definition well_formed {K : sops} (m : mps K) : Prop := exists D F, Forall (sized D F) (m_modules m).
Definition same_sizes {K K' : sops} (m : mps K) (m' : mps K') : Prop :=
  m_input m = m_input m' /\ m_feature m = m_feature m' /\ m_periodic m = m_periodic m' /\ m_parallel m = m_parallel m' /\ m_path m = m_path m'.
(** modules of the same kind, whose tensors are related by R *)
Section Same.
  Context {K K' : sops} (R : tensor K -> tensor K' -> Prop).
  Inductive mod_related : module K -> module K' -> Prop :=
  | MR_region t t' ub : R t t' -> mod_related (InputRegion t ub None) (InputRegion t' ub None)
  | MR_region_bias t t' ub b b' : R t t' -> R b b' -> mod_related (InputRegion t ub (Some b)) (InputRegion t' ub (Some b'))
  | MR_output t t' : R t t' -> mod_related (OutputSite t) (OutputSite t')
  | MR_site t t' : R t t' -> mod_related (InputSite t) (InputSite t')
  | MR_minput t t' : R t t' -> mod_related (MergedInput t) (MergedInput t')
  | MR_moutput t t' lo : R t t' -> mod_related (MergedOutput t lo) (MergedOutput t' lo).
  (** feature maps that give related tensors, or raise the same exception, for numbers related by E *)
  Definition map_related (E : K -> K' -> Prop) (f : option (fmap K)) (f' : option (fmap K')) : Prop :=
    match f, f' with
    | None, None => True
    | Some f, Some f' => forall v v', E v v' -> match f v, f' v' with Ok t, Ok t' => R t t' | Err e, Err e' => e = e' | _, _ => False end
    | _, _ => False
    end.
  Record related (E : K -> K' -> Prop) (m : mps K) (m' : mps K') : Prop := mkRelated {
    r_sizes : same_sizes m m'; r_mods : Forall2 mod_related (m_modules m) (m_modules m'); r_fmap : map_related E (m_fmap m) (m_fmap m') }.
  (** two runs end in the same way, with related results *)
  Definition same_run (p : res (tensor K) * gbs) (p' : res (tensor K') * gbs) : Prop :=
    match p, p' with
    | (Ok T, g), (Ok T', g') => R T T' /\ g = g'
    | (Err e, g), (Err e', g') => e = e' /\ g = g'
    | _, _ => False
    end.
End Same.
(** tensors of the same shape with entries related by E *)
Definition entries {K K' : sops} (E : K -> K' -> Prop) (t : tensor K) (t' : tensor K') : Prop :=
  shp t = shp t' /\ forall i, List.length i = List.length (shp t) -> E (get t i) (get t' i).

Section Generic.
  Context {K K' : sops} (E : K -> K' -> Prop).
  Hypotheses (E0 : E s0 s0) (E1 : E s1 s1) (Ea : forall x y x' y', E x y -> E x' y' -> E (sadd x x') (sadd y y'))
    (Em : forall x y x' y', E x y -> E x' y' -> E (smul x x') (smul y y')).
  Definition Gr : graded K K' := mkGraded K K' (fun _ => E) (fun _ _ _ _ _ H => H) E0 E1 (fun _ => Ea) (fun _ _ => Em).
  Lemma entries_trel k t t' : entries E t t' <-> trel Gr k t t'.
  Proof. split; intros H; exact H. Qed.
  Lemma mod_rel_of D F m m' : mod_related (entries E) m m' -> sized D F m -> modrel K K' Gr D F 0 m m'.
  Proof.
    intros [t t' ub Ht|t t' ub b b' Ht Hb|t t' Ht|t t' Ht|t t' Ht|t t' lo Ht]; cbn [sized].
    - intros (n & l & r & i & Es & Hl & Hr & Hi). apply (mr_input _ _ _ _ _ _ _ _ _ _ _ n l r i); try assumption. exact Logic.I.
    - intros (n & l & r & i & Es & Hl & Hr & Hi). apply (mr_input _ _ _ _ _ _ _ _ _ _ _ n l r i); try assumption.
    - intros (o & l & r & Es & Hl & Hr). apply (mr_output _ _ _ _ _ _ _ _ o l r); assumption.
    - intros (l & r & i & Es & Hl & Hr & Hi). apply (mr_site _ _ _ _ _ _ _ _ l r i); assumption.
    - intros (n & l & r & i & j & Es & Hl & Hr & Hi & Hj). apply (mr_minput _ _ _ _ _ _ _ _ n l r i j); assumption.
    - intros (o & l & r & i & Es & Hl & Hr & Hi). apply (mr_moutput _ _ _ _ _ _ _ _ lo o l r i); assumption.
  Qed.
  Lemma run_of k (m : M (tensor K)) (m' : M (tensor K')) g : mrel (trel Gr k) m m' -> same_run (entries E) (m g) (m' g).
  Proof.
    intros H. destruct (H g) as [A B]. unfold same_run. destruct (m g) as [[T|e] g1], (m' g) as [[T'|e'] g2]; cbn [fst snd rrel] in *; try contradiction; split; assumption.
  Qed.
  (** the embedding needs 1 - x, unless the input has been embedded before *)
  Theorem generic m m' x x' g : well_formed m -> related (entries E) E m m' -> entries E x x' ->
    ndim x = 3 \/ (forall v v', E v v' -> E (ssub s1 v) (ssub s1 v')) ->
    same_run (entries E) (mps_forward K m x g) (mps_forward K' m' x' g).
  Proof.
    intros (D & F & Hs) [(S1 & S2 & S3 & S4 & S5) Hm Hf] Hx Hsub.
    apply (run_of (totcost K D F 0 0 (m_modules m) + 1 + D)). apply (mps_forward_rel K K' Gr D F 0 0 0).
    - constructor; try assumption. clear -Hm Hs. induction Hm as [|a a' l l' Ha Hl IH]; [constructor|]. inversion Hs; subst. constructor; [apply mod_rel_of; assumption|apply IH; assumption].
    - exact Hx.
    - unfold elevel. destruct (Nat.eqb_spec (ndim x) 3) as [|N3]; [lia|]. destruct Hsub as [Hn|Hsub]; [contradiction|].
      unfold map_related in Hf. destruct (m_fmap m) as [f|], (m_fmap m') as [f'|]; try contradiction; [|split; [lia|exact Hsub]].
      intros v v' Hv. specialize (Hf v v' Hv). destruct (f v), (f' v'); exact Hf.
  Qed.
  (** TI_MPS *)
  Record ti_related (m : ti_mps K) (m' : ti_mps K') : Prop := mkTiRelated {
    tir_sizes : t_output m = t_output m' /\ t_bond m = t_bond m' /\ t_feature m = t_feature m' /\ t_parallel m = t_parallel m' /\ t_use_bias m = t_use_bias m' /\ t_fixed_bias m = t_fixed_bias m';
    tir_core : entries E (t_core m) (t_core m'); tir_vec : entries E (t_vec m) (t_vec m'); tir_mat : entries E (t_mat m) (t_mat m');
    tir_bias : match t_bias m, t_bias m' with None, None => True | Some b, Some b' => entries E b b' | _, _ => False end;
    tir_fmap : map_related (entries E) E (t_fmap m) (t_fmap m') }.
  Inductive in_related : ti_input K -> ti_input K' -> Prop :=
  | IR_tensor x x' : entries E x x' -> in_related (TTensor x) (TTensor x')
  | IR_list l l' : Forall2 (entries E) l l' -> in_related (TList l) (TList l').
  Definition embedded_input (i : ti_input K) : Prop := match i with TTensor x => ndim x = 3 | TList l => forall s, In s l -> ndim s = 2 end.
  Theorem generic_ti m m' i i' g : ti_sized m -> ti_related m m' -> in_related i i' ->
    embedded_input i \/ (forall v v', E v v' -> E (ssub s1 v) (ssub s1 v')) ->
    same_run (entries E) (ti_forward K m i g) (ti_forward K' m' i' g).
  Proof.
    intros (Z1 & Z2 & (oo & Z3) & Z4) [(S1 & S2 & S3 & S4 & S5 & S6) Hc Hv Hmat Hb Hf] Hi Hsub.
    apply (run_of (ticost (t_bond m) (t_feature m) 0 0 (match ti_format K m i with Ok y => size 1 y | _ => 0 end))). apply (ti_forward_rel K K' Gr (t_bond m) (t_feature m) 0 0 0).
    - constructor; try assumption; try lia.
      + intros _. rewrite Z2. cbn. lia.
      + intros _. rewrite Z3. cbn. lia.
    - destruct Hi; constructor; assumption.
    - unfold elevel. destruct (is_embedded K i) eqn:Ei; [lia|]. destruct Hsub as [Hn|Hsub].
      { exfalso. destruct i as [x|[|s l]]; cbn in *; [|discriminate Ei|]; [rewrite Hn in Ei; discriminate Ei|]. rewrite (Hn s (or_introl eq_refl)) in Ei. discriminate Ei. }
      unfold map_related in Hf. destruct (t_fmap m) as [f|], (t_fmap m') as [f'|]; try contradiction; [|split; [lia|exact Hsub]].
      intros v v' Hvv. specialize (Hf v v' Hvv). destruct (f v), (f' v'); exact Hf.
    - intros y ->. lia.
  Qed.
End Generic.

(** ** C96: which exception, which shape, which batch size: a matter of shapes only *)
Definition same_shapes {K K' : sops} (t : tensor K) (t' : tensor K') : Prop := shp t = shp t'.
Lemma shapes_entries {K K' : sops} (t : tensor K) (t' : tensor K') : same_shapes t t' -> entries (fun _ _ => True) t t'.
Proof. intros H. split; [exact H|auto]. Qed.
Lemma mods_shapes {K K' : sops} (l : list (module K)) (l' : list (module K')) : Forall2 (mod_related same_shapes) l l' -> Forall2 (mod_related (entries (fun _ _ => True))) l l'.
Proof. intros H. induction H as [|a a' l l' Ha Hl IH]; constructor; [|assumption]. destruct Ha; constructor; apply shapes_entries; assumption. Qed.
Lemma run_shapes {K K' : sops} (p : res (tensor K) * gbs) (p' : res (tensor K') * gbs) : same_run (entries (fun _ _ => True)) p p' -> same_run same_shapes p p'.
Proof. unfold same_run. destruct p as [[T|e] g], p' as [[T'|e'] g']; auto. intros [[H _] Hg]. split; assumption. Qed.
Lemma fmap_shapes {K K' : sops} (f : option (fmap K)) (f' : option (fmap K')) : map_related same_shapes (fun _ _ => True) f f' -> map_related (entries (fun _ _ => True)) (fun _ _ => True) f f'.
Proof.
  unfold map_related. destruct f as [f|], f' as [f'|]; auto. intros H v v' _. specialize (H v v' Logic.I). destruct (f v), (f' v'); auto. apply shapes_entries, H.
Qed.
Theorem C96_shapes_only (K K' : sops) m m' x x' g : @well_formed K m -> related same_shapes (fun (_ : K) (_ : K') => True) m m' -> same_shapes x x' ->
  same_run same_shapes (mps_forward K m x g) (mps_forward K' m' x' g).
Proof.
  intros Hw [H1 H2 H3] Hx. apply run_shapes. apply generic; auto; [|apply shapes_entries, Hx]. constructor; [exact H1|apply mods_shapes, H2|apply fmap_shapes, H3].
Qed.
(** in particular: training does not change whether, and how, forward fails *)
Theorem C96_training (K : cring) m m' x x' g : @well_formed K m -> trained m m' -> map_related same_shapes (fun (_ : K) (_ : K) => True) (m_fmap m) (m_fmap m') -> shp x = shp x' ->
  same_run same_shapes (mps_forward K m x g) (mps_forward K m' x' g).
Proof.
  intros Hw [Ht Em] Hf Hx. apply C96_shapes_only; [exact Hw| |exact Hx]. constructor; [rewrite Em; repeat split| |exact Hf].
  clear -Ht. induction Ht as [|a a' l l' Ha Hl IH]; constructor; [|assumption]. destruct Ha; constructor; assumption.
Qed.
Theorem C96_ti (K K' : sops) (m : ti_mps K) (m' : ti_mps K') i i' g : ti_sized m -> ti_related (fun _ _ => True) m m' -> in_related (fun _ _ => True) i i' ->
  same_run same_shapes (ti_forward K m i g) (ti_forward K' m' i' g).
Proof. intros Hs Hm Hi. apply run_shapes. apply generic_ti; auto. Qed.

(** ** C97: homomorphisms *)
Definition homomorphism {K K' : sops} (h : K -> K') : Prop :=
  h s0 = s0 /\ h s1 = s1 /\ (forall x y, h (sadd x y) = sadd (h x) (h y)) /\ (forall x y, h (smul x y) = smul (h x) (h y)) /\ (forall x y, h (ssub x y) = ssub (h x) (h y)).
Theorem C97_homomorphism (K K' : sops) (h : K -> K') m x g ff : homomorphism h -> well_formed m ->
  map_related (entries (fun v v' => v' = h v)) (fun v v' => v' = h v) (m_fmap m) ff ->
  same_run (entries (fun v v' => v' = h v)) (mps_forward K m x g) (mps_forward K' (map_mps (tmap h) ff (m_path m) m) (tmap h x) g).
Proof.
  intros (H0 & H1 & Ha & Hm & Hs) Hw Hf.
  assert (Ht : forall t : tensor K, entries (fun (v : K) (v' : K') => v' = h v) t (tmap h t)) by (intros t; split; reflexivity).
  apply generic; try assumption; try (symmetry; assumption).
  - intros ? ? ? ? -> ->. symmetry. apply Ha.
  - intros ? ? ? ? -> ->. symmetry. apply Hm.
  - constructor; [repeat split| |exact Hf]. cbn [map_mps m_modules]. induction (m_modules m) as [|a l IH]; [constructor|]. cbn [map]. constructor; [|exact IH].
    destruct a as [t ub [b|]|t|t|t|t lo]; cbn [map_mod option_map]; constructor; apply Ht.
  - apply Ht.
  - right. intros v v' ->. rewrite Hs, H1. reflexivity.
Qed.

(** a list or tensor of inputs, entry by entry *)
Definition map_in {K K' : sops} (h : K -> K') (i : ti_input K) : ti_input K' :=
  match i with TTensor x => TTensor (tmap h x) | TList l => TList (map (tmap h) l) end.
Theorem C97_ti (K K' : sops) (h : K -> K') m i g ff : homomorphism h -> ti_sized m ->
  map_related (entries (fun v v' => v' = h v)) (fun v v' => v' = h v) (t_fmap m) ff ->
  same_run (entries (fun v v' => v' = h v)) (ti_forward K m i g) (ti_forward K' (map_ti (tmap h) ff m) (map_in h i) g).
Proof.
  intros (H0 & H1 & Ha & Hm & Hs) Hw Hf.
  assert (Ht : forall t : tensor K, entries (fun (v : K) (v' : K') => v' = h v) t (tmap h t)) by (intros t; split; reflexivity).
  apply generic_ti; try assumption; try (symmetry; assumption).
  - intros ? ? ? ? -> ->. symmetry. apply Ha.
  - intros ? ? ? ? -> ->. symmetry. apply Hm.
  - constructor; try apply Ht; [cbn; auto 10| |exact Hf]. cbn [map_ti t_bias]. destruct (t_bias m) as [b|]; cbn [option_map]; [apply Ht|exact Logic.I].
  - destruct i as [x|l]; cbn [map_in]; constructor; [apply Ht|]. induction l as [|s l IH]; constructor; [apply Ht|exact IH].
  - right. intros v v' ->. rewrite Hs, H1. reflexivity.
Qed.

(** ** C98: derivatives.  A model whose parameters are functions of a real number t *)
Definition fun_ops : sops := mkOps (R -> R) (fun _ => 0%R) (fun _ => 1%R) (fun f g t => f t + g t)%R (fun f g t => f t * g t)%R (fun f g t => f t - g t)%R.
(** dual numbers a + b eps *)
Definition dual_ops : sops := mkOps (R * R) (0%R, 0%R) (1%R, 0%R) (fun p q => (fst p + fst q, snd p + snd q)%R)
  (fun p q => (fst p * fst q, snd p * fst q + fst p * snd q)%R) (fun p q => (fst p - fst q, snd p - snd q)%R).
Definition at_time (t : R) (T : tensor fun_ops) : tensor R_ops := tmap (fun f : R -> R => f t) T.
(** p is the value and the derivative of f at t *)
Definition tangent (t : R) (f : fun_ops) (p : dual_ops) : Prop := (f : R -> R) t = fst p /\ derivable_pt_lim f t (snd p).
Lemma tangent_0 t : tangent t s0 s0. Proof. split; [reflexivity|]. apply derivable_pt_lim_const. Qed.
Lemma tangent_1 t : tangent t s1 s1. Proof. split; [reflexivity|]. apply derivable_pt_lim_const. Qed.
Lemma tangent_add t f p f' p' : tangent t f p -> tangent t f' p' -> tangent t (sadd f f') (sadd p p').
Proof. intros [A B] [A' B']. split; [cbn; rewrite A, A'; reflexivity|]. exact (derivable_pt_lim_plus f f' t _ _ B B'). Qed.
Lemma tangent_mul t f p f' p' : tangent t f p -> tangent t f' p' -> tangent t (smul f f') (smul p p').
Proof. intros [A B] [A' B']. split; [cbn; rewrite A, A'; reflexivity|]. pose proof (derivable_pt_lim_mult f f' t _ _ B B') as Q. cbn. rewrite A, A' in Q. exact Q. Qed.
Lemma tangent_sub t f p : tangent t f p -> tangent t (ssub s1 f) (ssub s1 p).
Proof. intros [A B]. split; [cbn; rewrite A; reflexivity|]. exact (derivable_pt_lim_minus (fun _ => 1%R) f t _ _ (derivable_pt_lim_const 1 t) B). Qed.
Theorem C98_differentiable (m : mps fun_ops) (d : mps dual_ops) x dx g t : well_formed m -> m_fmap m = None ->
  related (entries (tangent t)) (tangent t) m d -> entries (tangent t) x dx ->
  match mps_forward dual_ops d dx g with
  | (Ok P, g') => exists T, shp T = shp P /\
      (forall s, exists Ts, mps_forward R_ops (map_mps (at_time s) None (m_path m) m) (at_time s x) g = (Ok Ts, g') /\ shp Ts = shp P /\
         forall i, List.length i = List.length (shp P) -> get Ts i = (get T i : R -> R) s) /\
      forall i, List.length i = List.length (shp P) -> tangent t (get T i) (get P i)
  | (Err e, g') => forall s, mps_forward R_ops (map_mps (at_time s) None (m_path m) m) (at_time s x) g = (Err e, g')
  end.
Proof.
  intros Hw Hn Hd Hx.
  assert (Hg : same_run (entries (tangent t)) (mps_forward fun_ops m x g) (mps_forward dual_ops d dx g)).
  { apply generic; try assumption; [apply tangent_0|apply tangent_1|exact (tangent_add t)|exact (tangent_mul t)|]. right. exact (tangent_sub t). }
  assert (Hs : forall s, same_run (entries (fun (v : fun_ops) (v' : R_ops) => v' = v s)) (mps_forward fun_ops m x g) (mps_forward R_ops (map_mps (at_time s) None (m_path m) m) (at_time s x) g)).
  { intros s. apply (C97_homomorphism fun_ops R_ops (fun f => f s)); [repeat split|exact Hw|rewrite Hn; exact Logic.I]. }
  unfold same_run in Hg. destruct (mps_forward fun_ops m x g) as [[T|e] g1] eqn:Ef; destruct (mps_forward dual_ops d dx g) as [[P|e'] g2]; try contradiction.
  - destruct Hg as [[Sh Hg] <-]. exists T. split; [exact Sh|]. split.
    + intros s. specialize (Hs s). unfold same_run in Hs. destruct (mps_forward R_ops _ (at_time s x) g) as [[Ts|?] g3]; [|contradiction]. destruct Hs as [[Sh' Hs] <-].
      exists Ts. split; [reflexivity|]. split; [congruence|]. intros i Hi. apply Hs. congruence.
    + intros i Hi. apply Hg. congruence.
  - destruct Hg as [<- <-]. intros s. specialize (Hs s). unfold same_run in Hs. destruct (mps_forward R_ops _ (at_time s x) g) as [[Ts|?] g3]; [contradiction|]. destruct Hs as [<- <-]. reflexivity.
Qed.

Theorem C98_ti (m : ti_mps fun_ops) (d : ti_mps dual_ops) i di g t : ti_sized m -> t_fmap m = None ->
  ti_related (tangent t) m d -> in_related (tangent t) i di ->
  match ti_forward dual_ops d di g with
  | (Ok P, g') => exists T, shp T = shp P /\
      (forall s, exists Ts, ti_forward R_ops (map_ti (at_time s) None m) (map_in (fun f : fun_ops => (f : R -> R) s : R_ops) i) g = (Ok Ts, g') /\ shp Ts = shp P /\
         forall j, List.length j = List.length (shp P) -> get Ts j = (get T j : R -> R) s) /\
      forall j, List.length j = List.length (shp P) -> tangent t (get T j) (get P j)
  | (Err e, g') => forall s, ti_forward R_ops (map_ti (at_time s) None m) (map_in (fun f : fun_ops => (f : R -> R) s : R_ops) i) g = (Err e, g')
  end.
Proof.
  intros Hw Hn Hd Hx.
  assert (Hg : same_run (entries (tangent t)) (ti_forward fun_ops m i g) (ti_forward dual_ops d di g)).
  { apply generic_ti; try assumption; [apply tangent_0|apply tangent_1|exact (tangent_add t)|exact (tangent_mul t)|]. right. exact (tangent_sub t). }
  assert (Hs : forall s, same_run (entries (fun (v : fun_ops) (v' : R_ops) => v' = v s)) (ti_forward fun_ops m i g) (ti_forward R_ops (map_ti (at_time s) None m) (map_in (fun f : fun_ops => (f : R -> R) s : R_ops) i) g)).
  { intros s. apply (C97_ti fun_ops R_ops (fun f => f s)); [repeat split|exact Hw|rewrite Hn; exact Logic.I]. }
  unfold same_run in Hg. destruct (ti_forward fun_ops m i g) as [[T|e] g1] eqn:Ef; destruct (ti_forward dual_ops d di g) as [[P|e'] g2]; try contradiction.
  - destruct Hg as [[Sh Hg] <-]. exists T. split; [exact Sh|]. split.
    + intros s. specialize (Hs s). unfold same_run in Hs. destruct (ti_forward R_ops _ _ g) as [[Ts|?] g3]; [|contradiction]. destruct Hs as [[Sh' Hs] <-].
      exists Ts. split; [reflexivity|]. split; [congruence|]. intros j Hj. apply Hs. congruence.
    + intros j Hj. apply Hg. congruence.
  - destruct Hg as [<- <-]. intros s. specialize (Hs s). unfold same_run in Hs. destruct (ti_forward R_ops _ _ g) as [[Ts|?] g3]; [contradiction|]. destruct Hs as [<- <-]. reflexivity.
Qed.

(** ** C99: monotone in parameters and embedded inputs that are >= 0 *)
Definition between (x y : R_ops) : Prop := (0 <= x <= y)%R.
Theorem C99_monotone (m m' : mps R_ops) x x' g : well_formed m -> ndim x = 3 -> related (entries between) between m m' -> entries between x x' ->
  same_run (entries between) (mps_forward R_ops m x g) (mps_forward R_ops m' x' g).
Proof.
  intros Hw Hn Hm Hx. apply generic; try assumption.
  - cbn. unfold between. lra.
  - cbn. unfold between. lra.
  - intros a b c d' [A1 A2] [B1 B2]. cbn. unfold between. lra.
  - intros a b c d' [A1 A2] [B1 B2]. cbn. split; [apply Rmult_le_pos; assumption|apply Rmult_le_compat; assumption].
  - left. exact Hn.
Qed.
Theorem C99_ti (m m' : ti_mps R_ops) i i' g : ti_sized m -> embedded_input i -> ti_related between m m' -> in_related between i i' ->
  same_run (entries between) (ti_forward R_ops m i g) (ti_forward R_ops m' i' g).
Proof.
  intros Hw Hn Hm Hx. apply generic_ti; try assumption.
  - cbn. unfold between. lra.
  - cbn. unfold between. lra.
  - intros a b c d' [A1 A2] [B1 B2]. cbn. unfold between. lra.
  - intros a b c d' [A1 A2] [B1 B2]. cbn. split; [apply Rmult_le_pos; assumption|apply Rmult_le_compat; assumption].
  - left. exact Hn.
Qed.

(** ** a model with regions of two sites and three outputs, and a TI_MPS, for each kind of numbers *)
Section Case.
  Context {K : sops} (c : nat -> K).
  Definition entry_no (i : list nat) : nat := fold_right (fun a n => a + 2 * n) 0 i.
  Definition filled (k : nat) (s : list nat) : tensor K := mkT s (fun i => c (k + entry_no i)).
  Definition pf_model : mps K := mkMps K 4 3 2 2 false true 2 PNone true
    [InputRegion (filled 0 [2; 2; 2; 2]) true (Some (filled 1 [1; 2; 2])); OutputSite (filled 2 [3; 2; 2]); InputRegion (filled 3 [2; 2; 2; 2]) true (Some (filled 4 [1; 2; 2]))] None.
  Definition pf_raw : tensor K := filled 1 [1; 4].
  Definition pf_emb : tensor K := filled 1 [1; 4; 2].
  Definition pf_ti : ti_mps K := mkTi K 3 2 2 true true true (filled 0 [2; 2; 2]) (filled 1 [2]) (filled 2 [2; 3]) (Some (filled 3 [2; 2])) None.
  Lemma pf_wf : well_formed pf_model.
  Proof.
    exists 2, 2. repeat constructor; cbn [sized filled shp].
    - exists 2, 2, 2, 2. auto.
    - exists 3, 2, 2. auto.
    - exists 2, 2, 2, 2. auto.
  Qed.
  Lemma pf_ti_wf : ti_sized pf_ti.
  Proof. repeat split. exists 3. reflexivity. Qed.
End Case.
Lemma filled_entries {K K' : sops} (E : K -> K' -> Prop) c c' k s : (forall n, E (c n) (c' n)) -> entries E (filled c k s) (filled c' k s).
Proof. intros H. split; [reflexivity|]. intros i _. apply H. Qed.
Lemma pf_related {K K' : sops} (E : K -> K' -> Prop) c c' : (forall n, E (c n) (c' n)) -> related (entries E) E (pf_model c) (pf_model c').
Proof. intros H. split; [repeat split| |exact Logic.I]. repeat constructor; intros; apply H. Qed.
Lemma pf_ti_related {K K' : sops} (E : K -> K' -> Prop) c c' : (forall n, E (c n) (c' n)) -> ti_related E (pf_ti c) (pf_ti c').
Proof. intros H. constructor; try exact Logic.I; try (apply (filled_entries E); exact H). repeat split. Qed.

Definition zc (n : nat) : Z_ops := Z.of_nat n.
Definition rc (n : nat) : R_ops := INR n.
(** integers and reals: both return; the integer result is computed *)
Example C96_case : match mps_forward Z_ops (pf_model zc) (pf_raw zc) None, mps_forward R_ops (pf_model rc) (pf_raw rc) None with
  | (Ok T, g), (Ok T', g') => shp T = [1; 3] /\ get T [0; 2] = (-2304896)%Z /\ shp T' = [1; 3] /\ g = Some 1 /\ g' = Some 1
  | _, _ => False end.
Proof.
  pose proof (C96_shapes_only Z_ops R_ops (pf_model zc) (pf_model rc) (pf_raw zc) (pf_raw rc) None (pf_wf _)) as H.
  assert (Hr : related same_shapes (fun (_ : Z_ops) (_ : R_ops) => True) (pf_model zc) (pf_model rc)) by (split; [repeat split| |exact Logic.I]; repeat constructor).
  specialize (H Hr eq_refl). unfold same_run in H. destruct (mps_forward R_ops _ _ _) as [[T'|e'] g'].
  - assert (Hz : match mps_forward Z_ops (pf_model zc) (pf_raw zc) None with (Ok T, g) => shp T = [1; 3] /\ get T [0; 2] = (-2304896)%Z /\ g = Some 1 | _ => False end) by (vm_compute; repeat split).
    destruct (mps_forward Z_ops _ _ _) as [[T|e] g]; [|contradiction]. destruct H as [H Hg], Hz as (Z1 & Z2 & Z3). unfold same_shapes in H. repeat split; congruence.
  - assert (Hz : match mps_forward Z_ops (pf_model zc) (pf_raw zc) None with (Ok T, g) => True | _ => False end) by (vm_compute; exact Logic.I).
    destruct (mps_forward Z_ops _ _ _) as [[T|e] g]; contradiction.
Qed.
(** the embedding of the integers in the reals is a homomorphism: the real model returns the number computed above *)
Example C97_case : homomorphism (K := Z_ops) (K' := R_ops) IZR /\
  match mps_forward R_ops (map_mps (tmap (IZR : Z_ops -> R_ops)) None PNone (pf_model zc)) (tmap (IZR : Z_ops -> R_ops) (pf_raw zc)) None with
  | (Ok T', g') => shp T' = [1; 3] /\ get T' [0; 2] = IZR (-2304896) /\ g' = Some 1
  | _ => False end.
Proof.
  assert (Hh : homomorphism (K := Z_ops) (K' := R_ops) IZR).
  { split; [reflexivity|]. split; [reflexivity|]. split; [exact plus_IZR|]. split; [exact mult_IZR|exact minus_IZR]. }
  split; [exact Hh|]. pose proof (C97_homomorphism Z_ops R_ops IZR (pf_model zc) (pf_raw zc) None None Hh (pf_wf _) Logic.I) as H. unfold same_run in H.
  assert (Hz : match mps_forward Z_ops (pf_model zc) (pf_raw zc) None with (Ok T, g) => shp T = [1; 3] /\ get T [0; 2] = (-2304896)%Z /\ g = Some 1 | _ => False end) by (vm_compute; repeat split).
  destruct (mps_forward Z_ops _ _ _) as [[T|e] g]; [|contradiction]. change (@m_path Z_ops (pf_model zc)) with PNone in H.
  destruct (mps_forward R_ops _ _ _) as [[T'|e'] g']; [|contradiction].
  destruct H as [[Sh H] <-], Hz as (Z1 & Z2 & Z3). split; [congruence|]. split; [|exact Z3]. rewrite <- Z2. apply H. rewrite Z1. reflexivity.
Qed.
(** parameters and inputs that move along straight lines: the number k is at k + k t *)
Definition line (k : nat) : fun_ops := fun t => (INR k + INR k * t)%R.
Definition moving (t : R) (k : nat) : dual_ops := ((INR k + INR k * t)%R, INR k).
Lemma line_tangent t k : tangent t (line k) (moving t k).
Proof.
  split; [reflexivity|]. cbn [snd moving]. unfold line.
  assert (H : derivable_pt_lim (fun t => INR k + INR k * t)%R t (0 + (0 * t + INR k * 1))%R).
  { apply (derivable_pt_lim_plus (fun _ => INR k) (fun t => INR k * t)%R); [apply derivable_pt_lim_const|].
    apply (derivable_pt_lim_mult (fun _ => INR k) (fun t => t)); [apply derivable_pt_lim_const|apply derivable_pt_lim_id]. }
  replace (0 + (0 * t + INR k * 1))%R with (INR k) in H by ring. exact H.
Qed.
Example C98_case t : well_formed (pf_model line) /\ related (entries (tangent t)) (tangent t) (pf_model line) (pf_model (moving t)) /\
  entries (tangent t) (pf_raw line) (pf_raw (moving t)) /\ exists P, mps_forward dual_ops (pf_model (moving t)) (pf_raw (moving t)) None = (Ok P, Some 1).
Proof.
  split; [apply pf_wf|]. split; [apply pf_related, line_tangent|]. split; [apply filled_entries, line_tangent|].
  assert (Hr : related same_shapes (fun (_ : Z_ops) (_ : dual_ops) => True) (pf_model zc) (pf_model (moving t))) by (split; [repeat split| |exact Logic.I]; repeat constructor).
  pose proof (C96_shapes_only Z_ops dual_ops (pf_model zc) (pf_model (moving t)) (pf_raw zc) (pf_raw (moving t)) None (pf_wf _) Hr eq_refl) as H. unfold same_run in H.
  assert (Hz : match mps_forward Z_ops (pf_model zc) (pf_raw zc) None with (Ok T, g) => g = Some 1 | _ => False end) by (vm_compute; reflexivity).
  destruct (mps_forward Z_ops _ _ _) as [[T|e] g]; [|contradiction]. destruct (mps_forward dual_ops _ _ _) as [[P|e'] g']; [|contradiction].
  exists P. destruct H as [_ <-]. rewrite Hz. reflexivity.
Qed.
Definition rc1 (n : nat) : R_ops := INR (S n).
Example C99_case : well_formed (pf_model rc) /\ ndim (pf_emb rc) = 3 /\ related (entries between) between (pf_model rc) (pf_model rc1) /\ entries between (pf_emb rc) (pf_emb rc1) /\
  exists T, mps_forward R_ops (pf_model rc) (pf_emb rc) None = (Ok T, Some 1).
Proof.
  assert (Hb : forall n, between (rc n) (rc1 n)) by (intros n; unfold between, rc, rc1; split; [apply pos_INR|apply le_INR; lia]).
  split; [apply pf_wf|]. split; [reflexivity|]. split; [apply pf_related, Hb|]. split; [apply filled_entries, Hb|].
  assert (Hr : related same_shapes (fun (_ : Z_ops) (_ : R_ops) => True) (pf_model zc) (pf_model rc)) by (split; [repeat split| |exact Logic.I]; repeat constructor).
  pose proof (C96_shapes_only Z_ops R_ops (pf_model zc) (pf_model rc) (pf_emb zc) (pf_emb rc) None (pf_wf _) Hr eq_refl) as H. unfold same_run in H.
  assert (Hz : match mps_forward Z_ops (pf_model zc) (pf_emb zc) None with (Ok T, g) => g = Some 1 | _ => False end) by (vm_compute; reflexivity).
  destruct (mps_forward Z_ops _ _ _) as [[T|e] g]; [|contradiction]. destruct (mps_forward R_ops _ _ _) as [[P|e'] g']; [|contradiction].
  exists P. destruct H as [_ <-]. rewrite Hz. reflexivity.
Qed.
(** TI_MPS: related models and inputs, and a run that returns *)
Example free_ti_case {K : sops} (E : Z_ops -> K -> Prop) c : (forall n, E (zc n) (c n)) ->
  ti_sized (pf_ti zc) /\ ti_related E (pf_ti zc) (pf_ti c) /\ in_related E (TTensor (pf_emb zc)) (TTensor (pf_emb c)) /\ embedded_input (TTensor (pf_emb zc)) /\
  match ti_forward Z_ops (pf_ti zc) (TTensor (pf_raw zc)) None with (Ok T, g) => get T [0; 2] = (-671104)%Z /\ g = Some 1 | _ => False end.
Proof.
  intros H. split; [apply pf_ti_wf|]. split; [apply pf_ti_related, H|]. split; [constructor; apply filled_entries, H|]. split; [reflexivity|]. vm_compute. repeat split.
Qed.
Print Assumptions C96_shapes_only.
Print Assumptions C96_training.
Print Assumptions C96_ti.
Print Assumptions C97_homomorphism.
Print Assumptions C97_ti.
Print Assumptions C98_differentiable.
Print Assumptions C98_ti.
Print Assumptions C99_monotone.
Print Assumptions C99_ti.
