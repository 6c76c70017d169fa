(** * P_Perturb: C118, how much forward moves when parameters and inputs move. *)
From Coq Require Import Reals Lra.
From Verif Require Import Base Scalars Tensor Spec Contractables Utils TorchMps TmSpec FloatSpec Param EinStr ParamMul ParamRed ParamFwd ParamMps P_Free.

(** a' is within beta a of a *)
Definition near (beta : R -> R) (a a' : R_ops) : Prop := (Rabs (a' - a) <= beta a)%R.
(** the same model, and the same input, with |a| + beta a instead of every number a *)
Definition widen (beta : R -> R) (t : tensor R_ops) : tensor R_ops := tmap (fun a : R_ops => (Rabs a + beta a)%R : R_ops) t.
Definition widen_mps (beta : R -> R) (m : mps R_ops) : mps R_ops := map_mps (widen beta) None (m_path m) m.
Definition widen_ti (beta : R -> R) (m : ti_mps R_ops) : ti_mps R_ops := map_ti (widen beta) None m.
Definition widen_in (beta : R -> R) (i : ti_input R_ops) : ti_input R_ops := map_in (fun a : R_ops => (Rabs a + beta a)%R : R_ops) i.

(** ** pairs of numbers *)
Definition pair_ops : sops := mkOps (R * R) (0%R, 0%R) (1%R, 1%R) (fun p q => (fst p + fst q, snd p + snd q)%R)
  (fun p q => (fst p * fst q, snd p * snd q)%R) (fun p q => (fst p - fst q, snd p - snd q)%R).
Definition pfst (p : pair_ops) : R_ops := fst (p : R * R).
Definition psnd (p : pair_ops) : R_ops := snd (p : R * R).
Lemma pfst_hom : homomorphism pfst. Proof. repeat split. Qed.
Lemma psnd_hom : homomorphism psnd. Proof. repeat split. Qed.
(** q holds a bound for the first number of p, and for the distance of the two *)
Definition bounds (p q : pair_ops) : Prop := (Rabs (pfst p) <= pfst q)%R /\ (Rabs (psnd p - pfst p) <= psnd q - pfst q)%R.
Lemma bounds_0 : bounds s0 s0.
Proof. split; unfold pfst, psnd; cbn [s0 pair_ops fst snd]; [rewrite Rabs_R0; lra|replace (0 - 0)%R with 0%R by ring; rewrite Rabs_R0; lra]. Qed.
Lemma bounds_1 : bounds s1 s1.
Proof. split; unfold pfst, psnd; cbn [s1 pair_ops fst snd]; [rewrite Rabs_R1; lra|replace (1 - 1)%R with 0%R by ring; rewrite Rabs_R0; lra]. Qed.
Lemma bounds_add x y x' y' : bounds x y -> bounds x' y' -> bounds (sadd x x') (sadd y y').
Proof.
  destruct x as [a b], y as [u v], x' as [a' b'], y' as [u' v']. intros [A1 A2] [B1 B2]. unfold bounds, pfst, psnd in *. cbn [sadd pair_ops fst snd] in *. split.
  - eapply Rle_trans; [apply Rabs_triang|]. lra.
  - replace (b + b' - (a + a'))%R with ((b - a) + (b' - a'))%R by ring. eapply Rle_trans; [apply Rabs_triang|]. lra.
Qed.
Lemma bounds_mul x y x' y' : bounds x y -> bounds x' y' -> bounds (smul x x') (smul y y').
Proof.
  destruct x as [a b], y as [u v], x' as [a' b'], y' as [u' v']. intros [A1 A2] [B1 B2]. unfold bounds, pfst, psnd in *. cbn [smul pair_ops fst snd] in *.
  pose proof (Rabs_pos a). pose proof (Rabs_pos a'). pose proof (Rabs_pos (b - a)). pose proof (Rabs_pos (b' - a')). split.
  - rewrite Rabs_mult. apply Rmult_le_compat; assumption.
  - replace (b * b' - a * a')%R with ((b - a) * b' + a * (b' - a'))%R by ring. eapply Rle_trans; [apply Rabs_triang|]. rewrite !Rabs_mult.
    assert (Hb' : (Rabs b' <= v')%R) by (replace b' with ((b' - a') + a')%R by ring; eapply Rle_trans; [apply Rabs_triang|]; lra).
    replace (v * v' - u * u')%R with ((v - u) * v' + u * (v' - u'))%R by ring. pose proof (Rabs_pos b').
    apply Rplus_le_compat; apply Rmult_le_compat; assumption.
Qed.

(** ** zipping two tensors, two models *)
Definition pzip (t t' : tensor R_ops) : tensor pair_ops := mkT (shp t) (fun i => (get t i, get t' i)).
Definition pwiden (beta : R -> R) (t : tensor pair_ops) : tensor pair_ops := tmap (fun p : pair_ops => (Rabs (pfst p), Rabs (pfst p) + beta (pfst p))%R : pair_ops) t.
Lemma pzip_fst t t' : tmap pfst (pzip t t') = t. Proof. destruct t. reflexivity. Qed.
Lemma pzip_snd t t' : shp t = shp t' -> tmap psnd (pzip t t') = t'. Proof. destruct t as [s g], t' as [s' g']. cbn. intros <-. reflexivity. Qed.
Lemma pzip_bounds beta t t' : entries (near beta) t t' -> entries bounds (pzip t t') (pwiden beta (pzip t t')).
Proof.
  intros [Hs H]. split; [reflexivity|]. intros i Hi. cbn [pwiden tmap pzip get]. unfold bounds, pfst, psnd. cbn [fst snd]. split; [lra|].
  specialize (H i Hi). unfold near in H. lra.
Qed.
Definition opt_zip (b b' : option (tensor R_ops)) : option (tensor pair_ops) := match b, b' with Some b, Some b' => Some (pzip b b') | _, _ => None end.
Lemma zip_mod beta (a a' : module R_ops) : mod_related (entries (near beta)) a a' ->
  exists p : module pair_ops, map_mod (tmap pfst) p = a /\ map_mod (tmap psnd) p = a' /\ mod_related (entries bounds) p (map_mod (pwiden beta) p) /\
    map_mod (tmap pfst) (map_mod (pwiden beta) p) = map_mod tabs a /\ map_mod (tmap psnd) (map_mod (pwiden beta) p) = map_mod (widen beta) a.
Proof.
  intros [t t' ub Ht|t t' ub b b' Ht Hb|t t' Ht|t t' Ht|t t' Ht|t t' lo Ht];
    [exists (InputRegion (pzip t t') ub None)|exists (InputRegion (pzip t t') ub (Some (pzip b b')))|exists (OutputSite (pzip t t'))|exists (InputSite (pzip t t'))|exists (MergedInput (pzip t t'))|exists (MergedOutput (pzip t t') lo)];
    cbn [map_mod option_map]; rewrite ?pzip_fst, ?(pzip_snd t t' (proj1 Ht)); try rewrite (pzip_snd b b' (proj1 Hb));
    (split; [reflexivity|split; [reflexivity|split; [|split; reflexivity]]]); constructor; apply pzip_bounds; assumption.
Qed.
Lemma zip_mods beta l l' : Forall2 (mod_related (entries (near beta))) l l' ->
  exists P : list (module pair_ops), map (map_mod (tmap pfst)) P = l /\ map (map_mod (tmap psnd)) P = l' /\ Forall2 (mod_related (entries bounds)) P (map (map_mod (pwiden beta)) P) /\
    map (map_mod (tmap pfst)) (map (map_mod (pwiden beta)) P) = map (map_mod tabs) l /\ map (map_mod (tmap psnd)) (map (map_mod (pwiden beta)) P) = map (map_mod (widen beta)) l.
Proof.
  intros H. induction H as [|a a' l l' Ha Hl IH].
  - exists []. repeat split. constructor.
  - destruct (zip_mod beta a a' Ha) as (p & A1 & A2 & A3 & A4 & A5). destruct IH as (P & B1 & B2 & B3 & B4 & B5). exists (p :: P). cbn [map].
    rewrite A1, A2, A4, A5, B1, B2, B4, B5. repeat split; constructor; assumption.
Qed.
(** the result of a run under a homomorphism *)
Lemma run_pair (rP rQ : res (tensor pair_ops) * gbs) (r r' ra rv : res (tensor R_ops) * gbs) :
  same_run (entries bounds) rP rQ -> same_run (entries (fun v v' => v' = pfst v)) rP r -> same_run (entries (fun v v' => v' = psnd v)) rP r' ->
  same_run (entries (fun v v' => v' = pfst v)) rQ ra -> same_run (entries (fun v v' => v' = psnd v)) rQ rv ->
  match r with
  | (Err e, g) => r' = (Err e, g)
  | (Ok T, g) => exists T' A V, r' = (Ok T', g) /\ ra = (Ok A, g) /\ rv = (Ok V, g) /\ shp T' = shp T /\ shp A = shp T /\ shp V = shp T /\
      forall i, List.length i = List.length (shp T) -> (Rabs (get T' i - get T i) <= get V i - get A i)%R /\ (Rabs (get T i) <= get A i)%R
  end.
Proof.
  unfold same_run. destruct rP as [[P|eP] gP], rQ as [[Q|eQ] gQ], r as [[T|e1] g1], r' as [[T'|e2] g2], ra as [[A|e3] g3], rv as [[V|e4] g4]; try contradiction.
  - intros [[S1 H1] <-] [[S2 H2] <-] [[S3 H3] <-] [[S4 H4] <-] [[S5 H5] <-]. exists T', A, V. repeat (split; [congruence|]).
    intros i Hi. rewrite H2, H3, H4, H5 by congruence. destruct (H1 i ltac:(congruence)) as [B1 B2]. split; assumption.
  - intros [<- <-] [<- <-] [<- <-] _ _. reflexivity.
Qed.
Lemma mods_hom (h : pair_ops -> R_ops) (P : list (module pair_ops)) : Forall2 (mod_related (entries (fun (v : pair_ops) (v' : R_ops) => v' = h v))) P (map (map_mod (tmap h)) P).
Proof.
  assert (Ht : forall t : tensor pair_ops, entries (fun (v : pair_ops) (v' : R_ops) => v' = h v) t (tmap h t)) by (intros t; split; reflexivity).
  induction P as [|a l IH]; [constructor|]. cbn [map]. constructor; [|exact IH]. destruct a as [t ub [b|]|t|t|t|t lo]; cbn [map_mod option_map]; constructor; apply Ht.
Qed.
Lemma sized_unmap {K K' : sops} D F (h : K -> K') (l : list (module K)) : Forall (sized D F) (map (map_mod (tmap h)) l) -> Forall (sized D F) l.
Proof. induction l as [|a l IH]; [constructor|]. cbn [map]. intros H. inversion H as [|? ? Ha Hl]; subst. constructor; [|exact (IH Hl)]. destruct a; exact Ha. Qed.
(** the run of a model of pairs, and its image *)
Lemma run_hom (h : pair_ops -> R_ops) (MP : mps pair_ops) (m : mps R_ops) X g : homomorphism h -> well_formed MP -> m_fmap MP = None -> m_fmap m = None ->
  same_sizes MP m -> map (map_mod (tmap h)) (m_modules MP) = m_modules m ->
  same_run (entries (fun (v : pair_ops) (v' : R_ops) => v' = h v)) (mps_forward pair_ops MP X g) (mps_forward R_ops m (tmap h X) g).
Proof.
  intros (H0 & H1 & Ha & Hm & Hs) Hw F1 F2 Hz Hmods. apply generic; try assumption; try (symmetry; assumption).
  - intros ? ? ? ? -> ->. symmetry. apply Ha.
  - intros ? ? ? ? -> ->. symmetry. apply Hm.
  - constructor; [exact Hz|rewrite <- Hmods; apply mods_hom|rewrite F1, F2; exact Logic.I].
  - split; reflexivity.
  - right. intros v v' ->. rewrite Hs, H1. reflexivity.
Qed.
Theorem C118_mps (beta gamma : R -> R) m m' x x' g : well_formed m -> m_fmap m = None -> ndim x = 3 ->
  related (entries (near beta)) (near beta) m m' -> entries (near gamma) x x' ->
  match mps_forward R_ops m x g with
  | (Err e, g') => mps_forward R_ops m' x' g = (Err e, g')
  | (Ok T, g') => exists T' A V, mps_forward R_ops m' x' g = (Ok T', g') /\
      mps_forward R_ops (map_mps tabs None (m_path m) m) (tabs x) g = (Ok A, g') /\
      mps_forward R_ops (widen_mps beta m) (widen gamma x) g = (Ok V, g') /\
      shp T' = shp T /\ shp A = shp T /\ shp V = shp T /\
      forall i, List.length i = List.length (shp T) -> (Rabs (get T' i - get T i) <= get V i - get A i)%R /\ (Rabs (get T i) <= get A i)%R
  end.
Proof.
  intros Hw Hf Hn [(Z1 & Z2 & Z3 & Z4 & Z5) Hm Hfm] Hx. destruct (zip_mods beta _ _ Hm) as (P & B1 & B2 & B3 & B4 & B5).
  assert (Hfm' : m_fmap m' = None) by (unfold map_related in Hfm; rewrite Hf in Hfm; destruct (m_fmap m'); [contradiction|reflexivity]).
  pose proof Hw as (D & F & Hsz).
  set (MP := mkMps pair_ops (m_input m) (m_output m) (m_bond m) (m_feature m) (m_periodic m) (m_parallel m) (m_label m) (m_path m) (m_use_bias m) P None).
  set (MQ := map_mps (K' := pair_ops) (pwiden beta) None (m_path m) MP).
  assert (WP : well_formed MP) by (exists D, F; apply (sized_unmap D F pfst); cbn [MP m_modules]; rewrite B1; exact Hsz).
  assert (WQ : well_formed MQ).
  { exists D, F. apply (sized_unmap D F pfst). cbn [MQ MP map_mps m_modules]. rewrite B4. clear -Hsz. induction Hsz as [|a l Ha Hl IH]; constructor; [|exact IH]. destruct a; exact Ha. }
  apply (run_pair (mps_forward pair_ops MP (pzip x x') g) (mps_forward pair_ops MQ (pwiden gamma (pzip x x')) g)).
  - apply generic; [exact bounds_0|exact bounds_1|exact bounds_add|exact bounds_mul|exact WP| |apply pzip_bounds; exact Hx|left; exact Hn].
    constructor; [repeat split|exact B3|exact Logic.I].
  - pose proof (run_hom pfst MP m (pzip x x') g pfst_hom WP eq_refl Hf) as H. rewrite pzip_fst in H. apply H; [repeat split|exact B1].
  - pose proof (run_hom psnd MP m' (pzip x x') g psnd_hom WP eq_refl Hfm') as H. rewrite (pzip_snd x x' (proj1 Hx)) in H. apply H; [repeat split; assumption|exact B2].
  - exact (run_hom pfst MQ (map_mps tabs None (m_path m) m) (pwiden gamma (pzip x x')) g pfst_hom WQ eq_refl eq_refl ltac:(repeat split) B4).
  - exact (run_hom psnd MQ (widen_mps beta m) (pwiden gamma (pzip x x')) g psnd_hom WQ eq_refl eq_refl ltac:(repeat split) B5).
Qed.

(** ** TI_MPS *)
Definition zip_in (i i' : ti_input R_ops) : ti_input pair_ops :=
  match i, i' with TTensor x, TTensor x' => TTensor (pzip x x') | TList l, TList l' => TList (map (fun p => pzip (fst p) (snd p)) (combine l l')) | _, _ => TList [] end.
Lemma ti_run_hom (h : pair_ops -> R_ops) (MP : ti_mps pair_ops) X g : homomorphism h -> ti_sized MP -> t_fmap MP = None ->
  same_run (entries (fun (v : pair_ops) (v' : R_ops) => v' = h v)) (ti_forward pair_ops MP X g) (ti_forward R_ops (map_ti (tmap h) None MP) (map_in h X) g).
Proof. intros Hh Hw F1. apply C97_ti; [exact Hh|exact Hw|rewrite F1; exact Logic.I]. Qed.
Lemma zip_in_fst beta i i' : in_related (near beta) i i' -> map_in pfst (zip_in i i') = i /\ map_in psnd (zip_in i i') = i'.
Proof.
  intros [x x' H|l l' H]; cbn [zip_in map_in].
  - rewrite pzip_fst, (pzip_snd x x' (proj1 H)). split; reflexivity.
  - rewrite !map_map. cut (map (fun p => tmap pfst (pzip (fst p) (snd p))) (combine l l') = l /\ map (fun p => tmap psnd (pzip (fst p) (snd p))) (combine l l') = l').
    { intros [Q1 Q2]. rewrite Q1, Q2. split; reflexivity. }
    induction H as [|a a' l l' Ha Hl IH]; [split; reflexivity|]. destruct IH as [I1 I2]. cbn [combine map fst snd]. rewrite I1, I2, pzip_fst, (pzip_snd a a' (proj1 Ha)). split; reflexivity.
Qed.
Lemma zip_in_bounds beta i i' : in_related (near beta) i i' -> exists Y, in_related bounds (zip_in i i') Y /\ map_in pfst Y = map_in (fun a : R_ops => Rabs a : R_ops) i /\ map_in psnd Y = widen_in beta i.
Proof.
  intros [x x' H|l l' H]; cbn [zip_in map_in widen_in].
  - exists (TTensor (pwiden beta (pzip x x'))). split; [constructor; apply pzip_bounds; exact H|]. split; reflexivity.
  - cut (exists Y, Forall2 (entries bounds) (map (fun p => pzip (fst p) (snd p)) (combine l l')) Y /\ map (tmap pfst) Y = map tabs l /\ map (tmap psnd) Y = map (widen beta) l).
    { intros (Y & Q1 & Q2 & Q3). exists (TList Y). split; [constructor; exact Q1|]. cbn [map_in]. rewrite Q2, Q3. split; reflexivity. }
    induction H as [|a a' l l' Ha Hl IH]; [exists []; repeat split; constructor|]. destruct IH as (Y & I1 & I2 & I3). exists (pwiden beta (pzip a a') :: Y). cbn [combine map fst snd]. rewrite I2, I3.
    split; [constructor; [apply pzip_bounds; exact Ha|exact I1]|]. split; reflexivity.
Qed.
Theorem C118_ti (beta gamma : R -> R) m m' i i' g : ti_sized m -> t_fmap m = None -> embedded_input i ->
  ti_related (near beta) m m' -> in_related (near gamma) i i' ->
  match ti_forward R_ops m i g with
  | (Err e, g') => ti_forward R_ops m' i' g = (Err e, g')
  | (Ok T, g') => exists T' A V, ti_forward R_ops m' i' g = (Ok T', g') /\
      ti_forward R_ops (map_ti tabs None m) (map_in (fun a : R_ops => Rabs a : R_ops) i) g = (Ok A, g') /\
      ti_forward R_ops (widen_ti beta m) (widen_in gamma i) g = (Ok V, g') /\
      shp T' = shp T /\ shp A = shp T /\ shp V = shp T /\
      forall j, List.length j = List.length (shp T) -> (Rabs (get T' j - get T j) <= get V j - get A j)%R /\ (Rabs (get T j) <= get A j)%R
  end.
Proof.
  intros Hw Hf Hn [Hz Hc Hv Hm Hb Hfm] Hx.
  assert (Hfm' : t_fmap m' = None) by (unfold map_related in Hfm; rewrite Hf in Hfm; destruct (t_fmap m'); [contradiction|reflexivity]).
  destruct (zip_in_fst gamma i i' Hx) as [I1 I2]. destruct (zip_in_bounds gamma i i' Hx) as (Y & Y1 & Y2 & Y3).
  set (zb := match t_bias m, t_bias m' with Some b, Some b' => Some (pzip b b') | _, _ => None end).
  set (MP := mkTi pair_ops (t_output m) (t_bond m) (t_feature m) (t_parallel m) (t_use_bias m) (t_fixed_bias m) (pzip (t_core m) (t_core m')) (pzip (t_vec m) (t_vec m')) (pzip (t_mat m) (t_mat m')) zb None).
  set (MQ := map_ti (K' := pair_ops) (pwiden beta) None MP).
  assert (E1 : map_ti (tmap pfst) None MP = m).
  { unfold MP, zb, map_ti. cbn. destruct m as [o b f p u x c v mt bi fm]. cbn in *. subst fm. destruct m' as [o' b' f' p' u' x' c' v' mt' bi' fm']. cbn in *. rewrite !pzip_fst. f_equal.
    destruct bi as [bb|], bi' as [bb'|]; try contradiction; cbn [option_map]; rewrite ?pzip_fst; reflexivity. }
  assert (E2 : map_ti (tmap psnd) None MP = m').
  { unfold MP, zb, map_ti. cbn. destruct m as [o b f p u x c v mt bi fm]. cbn in *. subst fm. destruct m' as [o' b' f' p' u' x' c' v' mt' bi' fm']. cbn in *. subst fm'.
    destruct Hz as (-> & -> & -> & -> & -> & ->). f_equal; [exact (pzip_snd c c' (proj1 Hc))|exact (pzip_snd v v' (proj1 Hv))|exact (pzip_snd mt mt' (proj1 Hm))|].
    destruct bi as [bb|], bi' as [bb'|]; try contradiction; [exact (f_equal Some (pzip_snd bb bb' (proj1 Hb)))|reflexivity]. }
  assert (E3 : map_ti (tmap pfst) None MQ = map_ti tabs None m).
  { unfold MQ, MP, zb, map_ti. cbn. destruct m as [o b f p u x c v mt bi fm]. cbn in *. destruct m' as [o' b' f' p' u' x' c' v' mt' bi' fm']. cbn in *. destruct bi as [bb|], bi' as [bb'|]; try contradiction; reflexivity. }
  assert (E4 : map_ti (tmap psnd) None MQ = widen_ti beta m).
  { unfold MQ, MP, zb, widen_ti, map_ti. cbn. destruct m as [o b f p u x c v mt bi fm]. cbn in *. destruct m' as [o' b' f' p' u' x' c' v' mt' bi' fm']. cbn in *. destruct bi as [bb|], bi' as [bb'|]; try contradiction; reflexivity. }
  assert (WP : ti_sized MP) by (destruct Hw as (W1 & W2 & W3 & W4); split; [exact W1|]; split; [exact W2|]; split; [exact W3|]; clear -W4 Hb; unfold MP, zb; cbn; destruct (t_bias m), (t_bias m'); try contradiction; exact W4).
  assert (WQ : ti_sized MQ) by (destruct Hw as (W1 & W2 & W3 & W4); split; [exact W1|]; split; [exact W2|]; split; [exact W3|]; clear -W4 Hb; unfold MQ, MP, zb; cbn; destruct (t_bias m), (t_bias m'); try contradiction; exact W4).
  apply (run_pair (ti_forward pair_ops MP (zip_in i i') g) (ti_forward pair_ops MQ Y g)).
  - apply generic_ti; [exact bounds_0|exact bounds_1|exact bounds_add|exact bounds_mul|exact WP| |exact Y1|left].
    + constructor; try exact Logic.I; try (apply pzip_bounds; assumption); [repeat split|]. cbn [MQ MP map_ti t_bias]. unfold zb. destruct (t_bias m), (t_bias m'); try contradiction; cbn [option_map]; [apply pzip_bounds; exact Hb|exact Logic.I].
    + destruct Hx as [x x' H|l l' H]; cbn [zip_in embedded_input]; [exact Hn|]. intros s Hs. apply in_map_iff in Hs as ([a b] & <- & Hs). apply in_combine_l in Hs. exact (Hn a Hs).
  - pose proof (ti_run_hom pfst MP (zip_in i i') g pfst_hom WP eq_refl) as H. rewrite E1, I1 in H. exact H.
  - pose proof (ti_run_hom psnd MP (zip_in i i') g psnd_hom WP eq_refl) as H. rewrite E2, I2 in H. exact H.
  - pose proof (ti_run_hom pfst MQ Y g pfst_hom WQ eq_refl) as H. rewrite E3, Y2 in H. exact H.
  - pose proof (ti_run_hom psnd MQ Y g psnd_hom WQ eq_refl) as H. rewrite E4, Y3 in H. exact H.
Qed.

(** ** continuity: small enough changes of all parameters and of the input together change the output as little as one likes *)
Lemma mods_two {K K1 K2 : sops} (E : K1 -> K2 -> Prop) (f1 : K -> K1) (f2 : K -> K2) (l : list (module K)) : (forall a, E (f1 a) (f2 a)) ->
  Forall2 (mod_related (entries E)) (map (map_mod (tmap f1)) l) (map (map_mod (tmap f2)) l).
Proof.
  intros H. assert (Ht : forall t : tensor K, entries E (tmap f1 t) (tmap f2 t)) by (intros t; split; [reflexivity|intros i _; apply H]).
  induction l as [|a l IH]; [constructor|]. cbn [map]. constructor; [|exact IH]. destruct a as [t ub [b|]|t|t|t|t lo]; cbn [map_mod option_map]; constructor; apply Ht.
Qed.
Lemma mps_two {K K1 K2 : sops} (E : K1 -> K2 -> Prop) (f1 : K -> K1) (f2 : K -> K2) (m : mps K) path : (forall a, E (f1 a) (f2 a)) ->
  related (entries E) E (map_mps (tmap f1) None path m) (map_mps (tmap f2) None path m).
Proof. intros H. constructor; [repeat split|apply mods_two; exact H|exact Logic.I]. Qed.
Lemma ti_two {K K1 K2 : sops} (E : K1 -> K2 -> Prop) (f1 : K -> K1) (f2 : K -> K2) (m : ti_mps K) : (forall a, E (f1 a) (f2 a)) ->
  ti_related E (map_ti (tmap f1) None m) (map_ti (tmap f2) None m).
Proof.
  intros H. assert (Ht : forall t : tensor K, entries E (tmap f1 t) (tmap f2 t)) by (intros t; split; [reflexivity|intros i _; apply H]).
  constructor; try apply Ht; [repeat split| |exact Logic.I]. cbn [map_ti t_bias]. destruct (t_bias m); [apply Ht|exact Logic.I].
Qed.
Lemma in_two {K K1 K2 : sops} (E : K1 -> K2 -> Prop) (f1 : K -> K1) (f2 : K -> K2) (i : ti_input K) : (forall a, E (f1 a) (f2 a)) -> in_related E (map_in f1 i) (map_in f2 i).
Proof.
  intros H. assert (Ht : forall t : tensor K, entries E (tmap f1 t) (tmap f2 t)) by (intros t; split; [reflexivity|intros j _; apply H]).
  destruct i as [x|l]; cbn [map_in]; constructor; [apply Ht|]. induction l; constructor; [apply Ht|assumption].
Qed.
Lemma wf_map {K K' : sops} (h : K -> K') m path : well_formed m -> well_formed (map_mps (tmap h) None path m).
Proof. intros (D & F & H). exists D, F. cbn [map_mps m_modules]. induction H as [|a l Ha Hl IH]; constructor; [|exact IH]. destruct a; exact Ha. Qed.
Lemma ti_wf_map {K K' : sops} (h : K -> K') m : ti_sized m -> ti_sized (map_ti (tmap h) None m).
Proof. intros (W1 & W2 & W3 & W4). split; [exact W1|]. split; [exact W2|]. split; [exact W3|]. cbn [map_ti t_bias]. destruct (t_bias m); [exact W4|exact Logic.I]. Qed.
(** |a| + t as a function of t, and its tangent *)
Definition ray (a : R_ops) : fun_ops := fun t => (Rabs a + t)%R.
Definition ray_at (t : R) (a : R_ops) : dual_ops := ((Rabs a + t)%R, 1%R).
Lemma ray_tangent t a : tangent t (ray a) (ray_at t a).
Proof.
  split; [reflexivity|]. cbn [snd ray_at]. unfold ray. replace 1%R with (0 + 1)%R by ring.
  apply (derivable_pt_lim_plus (fun _ => Rabs a) (fun t => t)); [apply derivable_pt_lim_const|apply derivable_pt_lim_id].
Qed.
(** the margin as a function of its size *)
Lemma margin_continuous (f : R -> R) l eta : derivable_pt_lim f 0 l -> (0 < eta)%R -> exists delta, (0 < delta)%R /\ (f delta - f 0 <= eta)%R.
Proof.
  intros Hd He. pose proof (derivable_continuous_pt f 0 (exist _ l Hd)) as Hc. destruct (Hc eta He) as (alp & Ha & H).
  exists (alp / 2)%R. split; [lra|]. specialize (H (alp / 2)%R). cbn in H. unfold R_dist in H.
  assert (Q : (Rabs (f (alp / 2) - f 0) < eta)%R).
  { apply H. split; [split; [exact Logic.I|lra]|]. rewrite Rminus_0_r, Rabs_right by lra. lra. }
  pose proof (Rle_abs (f (alp / 2)%R - f 0%R)). lra.
Qed.
Theorem C118_continuous m x g T g' i eta : well_formed m -> m_fmap m = None -> ndim x = 3 -> mps_forward R_ops m x g = (Ok T, g') -> List.length i = List.length (shp T) -> (0 < eta)%R ->
  exists delta, (0 < delta)%R /\ forall m' x', related (entries (near (fun _ => delta))) (near (fun _ => delta)) m m' -> entries (near (fun _ => delta)) x x' ->
    exists T', mps_forward R_ops m' x' g = (Ok T', g') /\ shp T' = shp T /\ (Rabs (get T' i - get T i) <= eta)%R.
Proof.
  intros Hw Hf Hn E Hi Heta.
  set (fm := map_mps (K' := fun_ops) (tmap ray) None (m_path m) m). set (fx := tmap ray x).
  assert (Wf : well_formed fm) by (apply wf_map; exact Hw).
  pose proof (C98_differentiable fm (map_mps (K' := dual_ops) (tmap (ray_at 0)) None (m_path m) m) fx (tmap (ray_at 0) x) g 0 Wf eq_refl
    (mps_two (tangent 0) ray (ray_at 0) m (m_path m) (ray_tangent 0)) (conj eq_refl (fun j _ => ray_tangent 0 (get x j)))) as HD.
  (* the run with margin delta is the run of the functions at delta *)
  assert (Vd : forall d, map_mps (at_time d) None (m_path fm) fm = widen_mps (fun _ => d) m).
  { intros d. unfold fm, widen_mps, map_mps. cbn [m_modules m_path m_input m_output m_bond m_feature m_periodic m_parallel m_label m_use_bias]. f_equal. rewrite map_map. apply map_ext. intros [t ub [b|]|t|t|t|t lo]; reflexivity. }
  assert (Hself : related (entries (near (fun _ => 0%R))) (near (fun _ => 0%R)) m m).
  { assert (Hz : forall t : tensor R_ops, entries (near (fun _ => 0%R)) t t) by (intros t; split; [reflexivity|]; intros j _; unfold near; replace (get t j - get t j)%R with 0%R by ring; rewrite Rabs_R0; lra).
    constructor; [repeat split| |rewrite Hf; exact Logic.I]. clear -Hz. induction (m_modules m) as [|a l IH]; constructor; [|exact IH]. destruct a as [t ub [b|]|t|t|t|t lo]; constructor; apply Hz. }
  (* with margin 0 it is the run of the absolute values *)
  pose proof (C118_mps (fun _ => 0%R) (fun _ => 0%R) m m x x g Hw Hf Hn Hself) as H0.
  assert (Hx0 : entries (near (fun _ => 0%R)) x x) by (split; [reflexivity|]; intros j _; unfold near; replace (get x j - get x j)%R with 0%R by ring; rewrite Rabs_R0; lra).
  specialize (H0 Hx0). rewrite E in H0. destruct H0 as (_ & A0 & V0 & _ & EA0 & EV0 & _ & _ & SV0 & _).
  assert (Same : same_run (entries (fun v v' : R_ops => v' = v)) (mps_forward R_ops (map_mps tabs None (m_path m) m) (tabs x) g) (mps_forward R_ops (widen_mps (fun _ => 0%R) m) (widen (fun _ => 0%R) x) g)).
  { apply generic; try reflexivity.
    - intros ? ? ? ? -> ->. reflexivity.
    - intros ? ? ? ? -> ->. reflexivity.
    - apply (wf_map (K' := R_ops) (fun a : R_ops => Rabs a : R_ops)). exact Hw.
    - apply (mps_two (fun v v' : R_ops => v' = v) (fun a : R_ops => Rabs a : R_ops) (fun a : R_ops => (Rabs a + 0)%R : R_ops)). intros a. apply Rplus_0_r.
    - split; [reflexivity|]. intros j _. apply Rplus_0_r.
    - left. exact Hn. }
  rewrite EA0, EV0 in Same. cbn [same_run] in Same. destruct Same as [[SA0 GA0] _].
  destruct (mps_forward dual_ops _ (tmap (ray_at 0) x) g) as [[P|e] g1].
  - destruct HD as (TF & STF & HR & HT). 
    pose proof (HR 0%R) as (Ts0 & ER0 & _ & GR0). rewrite Vd in ER0. change (at_time 0 fx) with (widen (fun _ => 0%R) x) in ER0. rewrite EV0 in ER0. injection ER0 as <- <-.
    pose proof (HR 0%R) as (Ts0' & ER0' & SR0' & _). rewrite Vd in ER0'. change (at_time 0 fx) with (widen (fun _ => 0%R) x) in ER0'. rewrite EV0 in ER0'. injection ER0' as <-.
    assert (Hi' : List.length i = List.length (shp P)) by congruence.
    destruct (HT i Hi') as [_ Hder]. destruct (margin_continuous _ _ eta Hder Heta) as (delta & Hd & Hdel). exists delta. split; [exact Hd|].
    intros m' x' Hm' Hx'. pose proof (C118_mps (fun _ => delta) (fun _ => delta) m m' x x' g Hw Hf Hn Hm' Hx') as H. rewrite E in H.
    destruct H as (T' & A & V & E1 & E2 & E3 & S1 & S2 & S3 & B). exists T'. split; [exact E1|]. split; [exact S1|].
    destruct (B i Hi) as [B1 _]. rewrite EA0 in E2. injection E2 as <-.
    destruct (HR delta) as (Tsd & ERd & _ & GRd). rewrite Vd in ERd. change (at_time delta fx) with (widen (fun _ => delta) x) in ERd. rewrite E3 in ERd. injection ERd as <-.
    pose proof (GRd i Hi') as Q1. pose proof (GR0 i Hi') as Q2. pose proof (GA0 i ltac:(congruence)) as Q3.
    set (a := get V i) in *. set (b := get A0 i) in *. set (c := get V0 i) in *. rewrite Q1 in B1. rewrite <- Q3, Q2 in B1. eapply Rle_trans; [exact B1|exact Hdel].
  - exfalso. specialize (HD 0%R). rewrite Vd in HD. change (at_time 0 fx) with (widen (fun _ => 0%R) x) in HD. rewrite EV0 in HD. discriminate HD.
Qed.
Theorem C118_ti_continuous m inp g T g' j eta : ti_sized m -> t_fmap m = None -> embedded_input inp -> ti_forward R_ops m inp g = (Ok T, g') -> List.length j = List.length (shp T) -> (0 < eta)%R ->
  exists delta, (0 < delta)%R /\ forall m' inp', ti_related (near (fun _ => delta)) m m' -> in_related (near (fun _ => delta)) inp inp' ->
    exists T', ti_forward R_ops m' inp' g = (Ok T', g') /\ shp T' = shp T /\ (Rabs (get T' j - get T j) <= eta)%R.
Proof.
  intros Hw Hf Hn E Hi Heta.
  set (fm := map_ti (K' := fun_ops) (tmap ray) None m). set (fx := map_in ray inp).
  pose proof (C98_ti fm (map_ti (K' := dual_ops) (tmap (ray_at 0)) None m) fx (map_in (ray_at 0) inp) g 0 (ti_wf_map ray m Hw) eq_refl
    (ti_two (tangent 0) ray (ray_at 0) m (ray_tangent 0)) (in_two (tangent 0) ray (ray_at 0) inp (ray_tangent 0))) as HD.
  assert (Vd : forall d, map_ti (at_time d) None fm = widen_ti (fun _ => d) m).
  { intros d. unfold fm, widen_ti, map_ti. cbn. destruct (t_bias m); reflexivity. }
  assert (Vi : forall d, map_in (fun f : fun_ops => (f : R -> R) d : R_ops) fx = widen_in (fun _ => d) inp).
  { intros d. unfold fx, widen_in. destruct inp as [x|l]; cbn [map_in]; [reflexivity|]. rewrite map_map. reflexivity. }
  assert (Hz : forall t : tensor R_ops, entries (near (fun _ => 0%R)) t t) by (intros t; split; [reflexivity|]; intros k _; unfold near; replace (get t k - get t k)%R with 0%R by ring; rewrite Rabs_R0; lra).
  assert (Hself : ti_related (near (fun _ => 0%R)) m m).
  { constructor; try apply Hz; [repeat split|destruct (t_bias m); [apply Hz|exact Logic.I]|rewrite Hf; exact Logic.I]. }
  assert (Hx0 : in_related (near (fun _ => 0%R)) inp inp) by (clear -Hz; destruct inp as [x|l]; [constructor; apply Hz|constructor; induction l as [|a l IH]; [constructor|constructor; [apply Hz|exact IH]]]).
  pose proof (C118_ti (fun _ => 0%R) (fun _ => 0%R) m m inp inp g Hw Hf Hn Hself Hx0) as H0.
  rewrite E in H0. destruct H0 as (_ & A0 & V0 & _ & EA0 & EV0 & _ & _ & SV0 & _).
  assert (Same : same_run (entries (fun v v' : R_ops => v' = v)) (ti_forward R_ops (map_ti tabs None m) (map_in (fun a : R_ops => Rabs a : R_ops) inp) g) (ti_forward R_ops (widen_ti (fun _ => 0%R) m) (widen_in (fun _ => 0%R) inp) g)).
  { apply generic_ti; try reflexivity.
    - intros ? ? ? ? -> ->. reflexivity.
    - intros ? ? ? ? -> ->. reflexivity.
    - apply (ti_wf_map (K' := R_ops) (fun a : R_ops => Rabs a : R_ops)). exact Hw.
    - apply (ti_two (fun v v' : R_ops => v' = v) (fun a : R_ops => Rabs a : R_ops) (fun a : R_ops => (Rabs a + 0)%R : R_ops)). intros a. apply Rplus_0_r.
    - apply (in_two (fun v v' : R_ops => v' = v) (fun a : R_ops => Rabs a : R_ops) (fun a : R_ops => (Rabs a + 0)%R : R_ops)). intros a. apply Rplus_0_r.
    - right. intros v v' ->. reflexivity. }
  rewrite EA0, EV0 in Same. cbn [same_run] in Same. destruct Same as [[SA0 GA0] _].
  destruct (ti_forward dual_ops _ _ g) as [[P|e] g1].
  - destruct HD as (TF & STF & HR & HT).
    pose proof (HR 0%R) as (Ts0 & ER0 & SR0' & GR0). rewrite Vd, Vi, EV0 in ER0. injection ER0 as <- <-.
    assert (Hi' : List.length j = List.length (shp P)) by congruence.
    destruct (HT j Hi') as [_ Hder]. destruct (margin_continuous _ _ eta Hder Heta) as (delta & Hd & Hdel). exists delta. split; [exact Hd|].
    intros m' x' Hm' Hx'. pose proof (C118_ti (fun _ => delta) (fun _ => delta) m m' inp x' g Hw Hf Hn Hm' Hx') as H. rewrite E in H.
    destruct H as (T' & A & V & E1 & E2 & E3 & S1 & S2 & S3 & B). exists T'. split; [exact E1|]. split; [exact S1|].
    destruct (B j Hi) as [B1 _]. rewrite EA0 in E2. injection E2 as <-.
    destruct (HR delta) as (Tsd & ERd & _ & GRd). rewrite Vd, Vi, E3 in ERd. injection ERd as <-.
    pose proof (GRd j Hi') as Q1. pose proof (GR0 j Hi') as Q2. pose proof (GA0 j ltac:(congruence)) as Q3.
    set (a := get V j) in *. set (b := get A0 j) in *. set (c := get V0 j) in *. rewrite Q1 in B1. rewrite <- Q3, Q2 in B1. eapply Rle_trans; [exact B1|exact Hdel].
  - exfalso. specialize (HD 0%R). rewrite Vd, Vi, EV0 in HD. discriminate HD.
Qed.

(** ** certified decisions: if the gap between two scores exceeds the two margins, no admissible change swaps them *)
Theorem C118_decision (beta gamma : R -> R) m m' x x' g T A V g1 g2 g3 b o o' : well_formed m -> m_fmap m = None -> ndim x = 3 ->
  related (entries (near beta)) (near beta) m m' -> entries (near gamma) x x' ->
  mps_forward R_ops m x g = (Ok T, g1) -> List.length (shp T) = 2 ->
  mps_forward R_ops (map_mps tabs None (m_path m) m) (tabs x) g = (Ok A, g2) -> mps_forward R_ops (widen_mps beta m) (widen gamma x) g = (Ok V, g3) ->
  (get T [b; o] - get T [b; o'] > (get V [b; o] - get A [b; o]) + (get V [b; o'] - get A [b; o']))%R ->
  exists T', mps_forward R_ops m' x' g = (Ok T', g1) /\ shp T' = shp T /\ (get T' [b; o] > get T' [b; o'])%R.
Proof.
  intros Hw Hf Hn Hm Hx E HT EA EV Hgap. pose proof (C118_mps beta gamma m m' x x' g Hw Hf Hn Hm Hx) as H. rewrite E in H.
  destruct H as (T' & A' & V' & E1 & E2 & E3 & S1 & _ & _ & B). rewrite EA in E2. injection E2 as -> _. rewrite EV in E3. injection E3 as -> _.
  exists T'. split; [exact E1|]. split; [exact S1|]. pose proof (B [b; o] (eq_sym HT)) as [B1 _]. pose proof (B [b; o'] (eq_sym HT)) as [B2 _].
  set (t := get T [b; o]) in *. set (u := get T [b; o']) in *. set (t' := get T' [b; o]) in *. set (u' := get T' [b; o']) in *.
  set (v1 := get V' [b; o]) in *. set (a1 := get A' [b; o]) in *. set (v2 := get V' [b; o']) in *. set (a2 := get A' [b; o']) in *.
  assert (L : forall t u t' u' v1 a1 v2 a2 : R, (Rabs (t' - t) <= v1 - a1)%R -> (Rabs (u' - u) <= v2 - a2)%R -> (t - u > v1 - a1 + (v2 - a2))%R -> (t' > u')%R).
  { clear. intros t u t' u' v1 a1 v2 a2 B1 B2 H. pose proof (Rle_abs (t - t')). pose proof (Rle_abs (u' - u)). rewrite (Rabs_minus_sym t t') in *. lra. }
  exact (L t u t' u' v1 a1 v2 a2 B1 B2 Hgap).
Qed.

(** ** a case: four sites, two regions with bias, three outputs; every parameter and every input may move by 1 *)
Definition rz (n : nat) : R_ops := IZR (Z.of_nat n).
Definition z_of (v : Z_ops) (v' : R_ops) : Prop := v' = IZR v.
Definition zc1 (n : nat) : Z_ops := (Z.of_nat n + 1)%Z.
Lemma z_of_run (c : nat -> Z_ops) (m : mps R_ops) x g : related (entries z_of) z_of (pf_model c) m -> entries z_of (pf_emb c) x ->
  same_run (entries z_of) (mps_forward Z_ops (pf_model c) (pf_emb c) g) (mps_forward R_ops m x g).
Proof.
  intros Hm Hx. apply generic; try reflexivity; try assumption; [|intros ? ? ? ? -> ->; symmetry; apply mult_IZR|apply pf_wf|left; reflexivity].
  intros ? ? ? ? -> ->. symmetry. apply plus_IZR.
Qed.
Lemma rz_abs n : z_of (zc n) (Rabs (rz n)).
Proof. unfold z_of, rz, zc. rewrite Rabs_right; [reflexivity|]. apply Rle_ge. apply (IZR_le 0). lia. Qed.
Lemma rz_wide n : z_of (zc1 n) (Rabs (rz n) + 1)%R.
Proof. unfold z_of, zc1. rewrite plus_IZR. f_equal. apply rz_abs. Qed.
Lemma case_two (f : R_ops -> R_ops) c : (forall n, z_of (c n) (f (rz n))) ->
  related (entries z_of) z_of (pf_model c) (map_mps (tmap f) None PNone (pf_model rz)) /\ entries z_of (pf_emb c) (tmap f (pf_emb rz)).
Proof. intros H. split; [split; [repeat split| |exact Logic.I]; repeat constructor; intros; apply H|]. split; [reflexivity|]. intros i _. apply H. Qed.
Example C118_case : forall m' x', related (entries (near (fun _ => 1%R))) (near (fun _ => 1%R)) (pf_model rz) m' -> entries (near (fun _ => 1%R)) (pf_emb rz) x' ->
  exists T', mps_forward R_ops m' x' None = (Ok T', Some 1) /\ (Rabs (get T' [0; 2]%nat - IZR 20335277952) <= IZR (60603947904 - 20335277952))%R.
Proof.
  intros m' x' Hm Hx.
  pose proof (C118_mps (fun _ => 1%R) (fun _ => 1%R) (pf_model rz) m' (pf_emb rz) x' None (pf_wf _) eq_refl eq_refl Hm Hx) as H.
  assert (Z1 : exists T, mps_forward Z_ops (pf_model zc) (pf_emb zc) None = (Ok T, Some 1) /\ shp T = [1; 3] /\ get T [0; 2] = 20335277952%Z).
  { assert (Q : match mps_forward Z_ops (pf_model zc) (pf_emb zc) None with (Ok T, g) => g = Some 1 /\ shp T = [1; 3] /\ get T [0; 2] = 20335277952%Z | _ => False end) by (vm_compute; repeat split).
    destruct (mps_forward Z_ops (pf_model zc) (pf_emb zc) None) as [[T|e] g]; [|contradiction]. destruct Q as [-> Q]. exists T. split; [reflexivity|exact Q]. }
  assert (Z2 : exists T, mps_forward Z_ops (pf_model zc1) (pf_emb zc1) None = (Ok T, Some 1) /\ shp T = [1; 3] /\ get T [0; 2] = 60603947904%Z).
  { assert (Q : match mps_forward Z_ops (pf_model zc1) (pf_emb zc1) None with (Ok T, g) => g = Some 1 /\ shp T = [1; 3] /\ get T [0; 2] = 60603947904%Z | _ => False end) by (vm_compute; repeat split).
    destruct (mps_forward Z_ops (pf_model zc1) (pf_emb zc1) None) as [[T|e] g]; [|contradiction]. destruct Q as [-> Q]. exists T. split; [reflexivity|exact Q]. }
  destruct Z1 as (Ta & Za & Sa & Ga), Z2 as (Tv & Zv & Sv & Gv).
  destruct (case_two (fun a => a) zc) as [R1 X1]; [intros n; reflexivity|]. destruct (case_two (fun a : R_ops => Rabs a : R_ops) zc rz_abs) as [R2 X2]. destruct (case_two (fun a : R_ops => (Rabs a + 1)%R : R_ops) zc1 rz_wide) as [R3 X3].
  assert (N0 : mps_forward R_ops (pf_model rz) (pf_emb rz) None = mps_forward R_ops (map_mps (tmap (fun a : R_ops => a)) None PNone (pf_model rz)) (tmap (fun a : R_ops => a) (pf_emb rz)) None) by reflexivity.
  pose proof (z_of_run _ _ _ None R1 X1) as Q1. rewrite <- N0, Za in Q1. pose proof (z_of_run _ _ _ None R2 X2) as Q2. rewrite Za in Q2. pose proof (z_of_run _ _ _ None R3 X3) as Q3. rewrite Zv in Q3.
  unfold same_run in Q1, Q2, Q3. destruct (mps_forward R_ops (pf_model rz) (pf_emb rz) None) as [[T|e] g1]; [|contradiction].
  destruct H as (T' & A & V & E1 & E2 & E3 & S1 & S2 & S3 & B).
  change (map_mps tabs None (m_path (pf_model rz)) (pf_model rz)) with (map_mps (K' := R_ops) (tmap (fun a : R_ops => Rabs a : R_ops)) None PNone (pf_model rz)) in E2.
  change (tabs (pf_emb rz)) with (tmap (fun a : R_ops => Rabs a : R_ops) (pf_emb rz)) in E2. rewrite E2 in Q2.
  change (widen_mps (fun _ => 1%R) (pf_model rz)) with (map_mps (K' := R_ops) (tmap (fun a : R_ops => (Rabs a + 1)%R : R_ops)) None PNone (pf_model rz)) in E3.
  change (widen (fun _ => 1%R) (pf_emb rz)) with (tmap (fun a : R_ops => (Rabs a + 1)%R : R_ops) (pf_emb rz)) in E3. rewrite E3 in Q3.
  destruct Q1 as [[ST G1] <-], Q2 as [[SA G2] _], Q3 as [[SV G3] _]. exists T'. split; [exact E1|].
  destruct (B [0; 2]%nat) as [B1 _]; [rewrite <- ST, Sa; reflexivity|]. pose proof (G1 [0; 2]%nat ltac:(rewrite Sa; reflexivity)) as V1. pose proof (G2 [0; 2]%nat ltac:(rewrite Sa; reflexivity)) as V2. pose proof (G3 [0; 2]%nat ltac:(rewrite Sv; reflexivity)) as V3.
  unfold z_of in V1, V2, V3. rewrite Ga in V1, V2. rewrite Gv in V3. rewrite V1, V2, V3 in B1. rewrite minus_IZR. exact B1.
Qed.
(** such neighbours exist *)
Example C118_near : related (entries (near (fun _ => 1%R))) (near (fun _ => 1%R)) (pf_model rz) (pf_model (fun n => (rz n + 1 / 2)%R : R_ops)) /\
  ti_related (near (fun _ => 1%R)) (pf_ti rz) (pf_ti (fun n => (rz n + 1 / 2)%R : R_ops)).
Proof.
  assert (H : forall n, near (fun _ => 1%R) (rz n) (rz n + 1 / 2)%R) by (intros n; unfold near; replace (rz n + 1 / 2 - rz n)%R with (1 / 2)%R by ring; rewrite Rabs_right; lra).
  split; [apply pf_related; exact H|apply pf_ti_related; exact H].
Qed.

Print Assumptions C118_mps.
Print Assumptions C118_ti.
Print Assumptions C118_continuous.
Print Assumptions C118_ti_continuous.
Print Assumptions C118_decision.
