(** * Float: rounding errors of MPS.forward and TI_MPS.forward, through numbers paired with their magnitudes *)
From Coq Require Import Reals Lra.
From Verif Require Import Base Scalars Tensor Contractables Utils TorchMps FloatSpec Param EinStr ParamMul ParamRed ParamFwd ParamMps.

(** numbers (value, magnitude) *)
Definition pair_ops : sops := mkOps (R * R) (0%R, 0%R) (1%R, 1%R)
  (fun p q => (fst p + fst q, snd p + snd q)%R) (fun p q => (fst p * fst q, snd p * snd q)%R) (fun p q => (fst p - fst q, Rabs (fst p - fst q))%R).
Definition with_abs (t : tensor R_ops) : tensor pair_ops := tmap (fun v : R => (v, Rabs v)) t.
Definition pair_fmap (f : fmap R_ops) : fmap pair_ops := fun p => let* t := f (fst p) in Ok (with_abs t).
Definition pair_mps (m : mps R_ops) : mps pair_ops := map_mps with_abs (option_map pair_fmap (m_fmap m)) (m_path m) m.
Definition pair_ti (m : ti_mps R_ops) : ti_mps pair_ops := map_ti with_abs (option_map pair_fmap (t_fmap m)) m.
Definition pair_in (i : ti_input R_ops) : ti_input pair_ops := match i with TTensor t => TTensor (with_abs t) | TList l => TList (map with_abs l) end.

Section Float.
  Variables (u : R) (fadd fmul fsub : R -> R -> R).
  Hypotheses (Hu : (0 <= u)%R) (Hadd : rounded u fadd Rplus) (Hmul : rounded u fmul Rmult) (Hsub : rounded u fsub Rminus).
  Notation FL := (fl_ops fadd fmul fsub).

  Lemma pow_ge1 k : (1 <= (1 + u) ^ k)%R.
  Proof. apply pow_R1_Rle. lra. Qed.
  Lemma pow_mono k k' : k <= k' -> ((1 + u) ^ k <= (1 + u) ^ k')%R.
  Proof. intros H. apply Rle_pow; [lra|exact H]. Qed.
  Definition near (k : nat) (x : R) (p : R * R) : Prop := (Rabs (x - fst p) <= ((1 + u) ^ k - 1) * snd p /\ Rabs (fst p) <= snd p)%R.
  Lemma near_abs k x p : near k x p -> (Rabs x <= (1 + u) ^ k * snd p)%R.
  Proof. intros [A B]. replace x with ((x - fst p) + fst p)%R by ring. eapply Rle_trans; [apply Rabs_triang|]. lra. Qed.
  Lemma near_pos k x p : near k x p -> (0 <= snd p)%R.
  Proof. intros [_ B]. eapply Rle_trans; [apply Rabs_pos|exact B]. Qed.
  (** one rounding *)
  Lemma near_round k z v a f : (Rabs (z - v) <= ((1 + u) ^ k - 1) * a)%R -> (Rabs z <= (1 + u) ^ k * a)%R -> (Rabs (f - z) <= u * Rabs z)%R ->
    (Rabs (f - v) <= ((1 + u) ^ S k - 1) * a)%R.
  Proof.
    intros H1 H2 H3. replace (f - v)%R with ((f - z) + (z - v))%R by ring. eapply Rle_trans; [apply Rabs_triang|]. cbn [pow].
    assert (u * Rabs z <= u * ((1 + u) ^ k * a))%R by (apply Rmult_le_compat_l; assumption). lra.
  Qed.
  Lemma near_add k x p x' p' : near k x p -> near k x' p' -> near (S k) (fadd x x') (fst p + fst p', snd p + snd p')%R.
  Proof.
    intros H H'. pose proof (near_abs _ _ _ H) as N. pose proof (near_abs _ _ _ H') as N'. destruct H as [A B], H' as [A' B']. split; cbn [fst snd].
    - apply (near_round k (x + x')); [| |apply Hadd].
      + replace (x + x' - (fst p + fst p'))%R with ((x - fst p) + (x' - fst p'))%R by ring. eapply Rle_trans; [apply Rabs_triang|]. lra.
      + eapply Rle_trans; [apply Rabs_triang|]. lra.
    - eapply Rle_trans; [apply Rabs_triang|]. lra.
  Qed.
  Lemma near_mul k k' x p x' p' : near k x p -> near k' x' p' -> near (S (k + k')) (fmul x x') (fst p * fst p', snd p * snd p')%R.
  Proof.
    intros H H'. pose proof (near_abs _ _ _ H) as N. pose proof (near_abs _ _ _ H') as N'. pose proof (near_pos _ _ _ H) as P. pose proof (near_pos _ _ _ H') as P'.
    destruct H as [A B], H' as [A' B']. pose proof (pow_ge1 k) as G1. pose proof (pow_ge1 k') as G2. split; cbn [fst snd].
    - apply (near_round (k + k') (x * x')); [| |apply Hmul]; rewrite pow_add.
      + replace (x * x' - fst p * fst p')%R with ((x - fst p) * x' + fst p * (x' - fst p'))%R by ring. eapply Rle_trans; [apply Rabs_triang|]. rewrite !Rabs_mult.
        assert (Rabs (x - fst p) * Rabs x' <= (((1 + u) ^ k - 1) * snd p) * ((1 + u) ^ k' * snd p'))%R by (apply Rmult_le_compat; try assumption; apply Rabs_pos).
        assert (Rabs (fst p) * Rabs (x' - fst p') <= snd p * (((1 + u) ^ k' - 1) * snd p'))%R by (apply Rmult_le_compat; try assumption; apply Rabs_pos). lra.
      + rewrite Rabs_mult. assert (Rabs x * Rabs x' <= ((1 + u) ^ k * snd p) * ((1 + u) ^ k' * snd p'))%R by (apply Rmult_le_compat; try assumption; apply Rabs_pos). lra.
    - rewrite Rabs_mult. apply Rmult_le_compat; try assumption; apply Rabs_pos.
  Qed.
  Lemma near_mono k k' x p : k <= k' -> near k x p -> near k' x p.
  Proof.
    intros Hk H. pose proof (near_pos _ _ _ H) as P. destruct H as [A B]. split; [|exact B]. eapply Rle_trans; [exact A|].
    apply Rmult_le_compat_r; [exact P|]. pose proof (pow_mono k k' Hk). lra.
  Qed.
  Lemma near_exact v : near 0 v (v, Rabs v).
  Proof. split; cbn [fst snd pow]; [|lra]. unfold Rminus. rewrite Rplus_opp_r, Rabs_R0. lra. Qed.
  Lemma near_0 : near 0 0%R (0%R, 0%R).
  Proof. pose proof (near_exact 0%R) as H. rewrite Rabs_R0 in H. exact H. Qed.
  Lemma near_1 : near 0 1%R (1%R, 1%R).
  Proof. pose proof (near_exact 1%R) as H. rewrite Rabs_R1 in H. exact H. Qed.
  Definition Gf : graded FL pair_ops := mkGraded FL pair_ops near near_mono near_0 near_1 near_add near_mul.
  (** the exact values; magnitudes of numbers that have not been computed with are absolute values *)
  Definition exact (k : nat) (x : R) (p : R * R) : Prop := x = fst p /\ (k = 0 -> snd p = Rabs x).
  Definition Gv : graded R_ops pair_ops.
  Proof.
    refine (mkGraded R_ops pair_ops exact _ _ _ _ _).
    - intros k k' x p Hk [A B]. split; [exact A|]. intros ->. apply B. lia.
    - split; [reflexivity|]. intros _. cbn. rewrite Rabs_R0. reflexivity.
    - split; [reflexivity|]. intros _. cbn. rewrite Rabs_R1. reflexivity.
    - intros k x p x' p' [-> _] [-> _]. split; [reflexivity|discriminate].
    - intros k k' x p x' p' [-> _] [-> _]. split; [reflexivity|discriminate].
  Defined.
  Definition Gm : graded R_ops pair_ops.
  Proof.
    refine (mkGraded R_ops pair_ops (fun _ x p => x = snd p) _ _ _ _ _); try reflexivity.
    - auto.
    - intros k x p x' p' -> ->. reflexivity.
    - intros k k' x p x' p' -> ->. reflexivity.
  Defined.

  Lemma tf t : trel Gf 0 (same_numbers fadd fmul fsub t) (with_abs t).
  Proof. split; [reflexivity|]. intros i _. cbn [with_abs tmap get same_numbers]. apply near_exact. Qed.
  Lemma tv t : trel Gv 0 t (with_abs t).
  Proof. split; [reflexivity|]. intros i _. cbn [with_abs tmap get]. split; reflexivity. Qed.
  Lemma tm t : trel Gm 0 (tabs t) (with_abs t).
  Proof. split; reflexivity. Qed.
  Lemma mod_rel {S1 : sops} (G : graded S1 pair_ops) (f : tensor R_ops -> tensor S1) D F m : (forall t, trel G 0 (f t) (with_abs t)) -> (forall t, shp (f t) = shp t) -> sized D F m ->
    modrel S1 pair_ops G D F 0 (map_mod f m) (map_mod with_abs m).
  Proof.
    intros Hf Hs Hm. destruct m as [t ub b|t|t|t|t lo]; cbn [sized map_mod] in *.
    - destruct Hm as (n & l & r & i & Es & Hl & Hr & Hi). apply (mr_input _ _ _ _ _ _ _ _ _ _ _ n l r i); try assumption; [apply Hf|rewrite Hs; exact Es|].
      destruct b; cbn; [apply Hf|exact Logic.I].
    - destruct Hm as (o & l & r & Es & Hl & Hr). apply (mr_output _ _ _ _ _ _ _ _ o l r); try assumption; [apply Hf|rewrite Hs; exact Es].
    - destruct Hm as (l & r & i & Es & Hl & Hr & Hi). apply (mr_site _ _ _ _ _ _ _ _ l r i); try assumption; [apply Hf|rewrite Hs; exact Es].
    - destruct Hm as (n & l & r & i & j & Es & Hl & Hr & Hi & Hj). apply (mr_minput _ _ _ _ _ _ _ _ n l r i j); try assumption; [apply Hf|rewrite Hs; exact Es].
    - destruct Hm as (o & l & r & i & Es & Hl & Hr & Hi). apply (mr_moutput _ _ _ _ _ _ _ _ lo o l r i); try assumption; [apply Hf|rewrite Hs; exact Es].
  Qed.
  Lemma mods_rel {S1 : sops} (G : graded S1 pair_ops) (f : tensor R_ops -> tensor S1) D F mods : (forall t, trel G 0 (f t) (with_abs t)) -> (forall t, shp (f t) = shp t) ->
    Forall (sized D F) mods -> Forall2 (modrel S1 pair_ops G D F 0) (map (map_mod f) mods) (map (map_mod with_abs) mods).
  Proof. intros Hf Hs H. induction H; constructor; [apply mod_rel; assumption|assumption]. Qed.
  Lemma map_mod_id (m : module R_ops) : map_mod (fun t => t) m = m.
  Proof. destruct m as [t ub [b|]|t|t|t|t lo]; reflexivity. Qed.
  Lemma map_mods_id (l : list (module R_ops)) : map (map_mod (fun t => t)) l = l.
  Proof. induction l as [|m l IH]; [reflexivity|]. cbn [map]. rewrite IH, map_mod_id. reflexivity. Qed.

  (** the embedding *)
  Lemma fmap_f (f : fmap R_ops) : fmaprel FL pair_ops Gf 0 0 f (pair_fmap f).
  Proof.
    intros v p [Hv _]. cbn [pow] in Hv. assert (v = fst p).
    { apply Rminus_diag_uniq. assert (Z : (Rabs (v - fst p) <= 0)%R) by lra. pose proof (Rabs_pos (v - fst p)). destruct (Req_dec (v - fst p) 0) as [|N]; [assumption|]. apply Rabs_pos_lt in N. lra. }
    subst v. unfold pair_fmap. destruct (f (fst p)) as [t|e]; cbn [rbind rrel]; [apply tf|reflexivity].
  Qed.
  Lemma fmap_v (f : fmap R_ops) : fmaprel R_ops pair_ops Gv 0 0 f (pair_fmap f).
  Proof. intros v p [-> _]. unfold pair_fmap. destruct (f (fst p)) as [t|e]; cbn [rbind rrel]; [apply tv|reflexivity]. Qed.
  Lemma level_f (fm : option (fmap R_ops)) (b : bool) : elevel FL pair_ops Gf 0 (match fm with None => if b then 0 else 1 | Some _ => 0 end) b fm (option_map pair_fmap fm).
  Proof.
    unfold elevel. destruct b; [lia|]. destruct fm as [f|]; cbn [option_map]; [apply fmap_f|]. split; [lia|].
    intros v p [Hv _]. cbn [pow] in Hv. assert (v = fst p).
    { apply Rminus_diag_uniq. assert (Z : (Rabs (v - fst p) <= 0)%R) by lra. pose proof (Rabs_pos (v - fst p)). destruct (Req_dec (v - fst p) 0) as [|N]; [assumption|]. apply Rabs_pos_lt in N. lra. }
    subst v. split; cbn [ssub s1 fl_ops pair_ops fst snd pow]; [|lra]. pose proof (Hsub 1%R (fst p)). lra.
  Qed.
  Lemma level_v (fm : option (fmap R_ops)) (b : bool) : elevel R_ops pair_ops Gv 0 0 b fm (option_map pair_fmap fm).
  Proof.
    unfold elevel. destruct b; [lia|]. destruct fm as [f|]; cbn [option_map]; [apply fmap_v|]. split; [lia|].
    intros v p [-> _]. split; cbn [ssub s1 R_ops pair_ops fst snd]; reflexivity.
  Qed.

  (** *** MPS *)
  Lemma mps_f D F m : Forall (sized D F) (m_modules m) -> mpsrel FL pair_ops Gf D F 0 (on_fl fadd fmul fsub m) (pair_mps m).
  Proof. intros H. constructor; try reflexivity. apply mods_rel; [apply tf|reflexivity|exact H]. Qed.
  Lemma mps_v D F m : Forall (sized D F) (m_modules m) -> mpsrel R_ops pair_ops Gv D F 0 m (pair_mps m).
  Proof. intros H. constructor; try reflexivity. cbn [pair_mps map_mps m_modules]. rewrite <- (map_mods_id (m_modules m)) at 1. apply mods_rel; [apply tv|reflexivity|exact H]. Qed.
  Lemma mps_m D F m : Forall (sized D F) (m_modules m) -> mpsrel R_ops pair_ops Gm D F 0 (map_mps tabs None PNone m) (map_mps with_abs None PNone m).
  Proof. intros H. constructor; try reflexivity. apply mods_rel; [apply tm|reflexivity|exact H]. Qed.
  Lemma tot_roundings {K : sops} D F kx (mods : list (module R_ops)) (f : tensor R_ops -> tensor K) : (forall t, shp (f t) = shp t) ->
    totcost K D F 0 kx (map (map_mod f) mods) + 1 + D = roundings D F kx mods.
  Proof.
    intros Hf. induction mods as [|m mods IH]; cbn [map totcost roundings fold_right]; [cbn; lia|].
    unfold totcost, roundings in IH. rewrite <- IH. clear IH.
    assert (H : modcost K D F 0 kx (map_mod f m) = mod_roundings D F kx m) by (destruct m; cbn [map_mod modcost mod_roundings]; unfold size; rewrite ?Hf; lia).
    rewrite H. lia.
  Qed.
  Lemma embed_form (K : sops) (m : mps K) y e : mps_embed K m y = Ok e -> ndim e = 3 /\ size 1 e = m_input m /\ size 2 e = m_feature m.
  Proof.
    unfold mps_embed. destruct (_ || _); cbn [assert_ rbind]; [|discriminate]. destruct (Nat.eqb_spec (size 1 y) (m_input m)) as [E1|]; cbn [assert_ rbind]; [|discriminate].
    destruct (Nat.eqb_spec (ndim y) 3) as [E3|].
    - destruct (Nat.eqb_spec (size 2 y) (m_feature m)); [|discriminate]. intros [= <-]. auto.
    - destruct (m_fmap m) as [f|].
      + destruct (embed_map K f y) as [e0|]; cbn [rbind]; [|discriminate]. destruct (list_eqb _ _) eqn:El; cbn [assert_ rbind]; [|discriminate]. intros [= <-].
        apply list_eqb_eq in El. unfold ndim, size. rewrite El. auto.
      + destruct (Nat.eqb_spec (m_feature m) 2) as [E2|]; [|discriminate]. intros [= <-]. unfold embed_default, ndim, size. cbn. rewrite <- E1, E2. auto.
  Qed.
  Lemma embed_id (K : sops) (m : mps K) e : ndim e = 3 -> size 1 e = m_input m -> size 2 e = m_feature m -> mps_embed K m e = Ok e.
  Proof. intros H3 H1 H2. unfold mps_embed. rewrite H3, H1, H2, !Nat.eqb_refl. reflexivity. Qed.

  Theorem mps_float D F m x g : Forall (sized D F) (m_modules m) ->
    match mps_forward R_ops m x g with
    | (Err e, g') => mps_forward FL (on_fl fadd fmul fsub m) x g = (Err e, g')
    | (Ok T, g') => exists T' e A, mps_forward FL (on_fl fadd fmul fsub m) x g = (Ok T', g') /\ site_input m x = Ok e /\ magnitude m e g = (Ok A, g') /\
        shp T' = shp T /\ shp A = shp T /\
        forall i, List.length i = List.length (shp T) ->
          (Rabs (get T' i - get T i) <= ((1 + u) ^ roundings D F (input_roundings m x) (m_modules m) - 1) * get A i)%R /\ (Rabs (get T i) <= get A i)%R
    end.
  Proof.
    intros Hs. pose proof (mps_forward_rel FL pair_ops Gf D F 0 _ 0 (on_fl fadd fmul fsub m) (pair_mps m) x (with_abs x) (mps_f D F m Hs) (tf x) (level_f (m_fmap m) (ndim x =? 3)) g) as [Rf Sf].
    pose proof (mps_forward_rel R_ops pair_ops Gv D F 0 0 0 m (pair_mps m) x (with_abs x) (mps_v D F m Hs) (tv x) (level_v (m_fmap m) (ndim x =? 3)) g) as [Rv Sv].
    cbn [on_fl map_mps m_modules] in Rf. rewrite tot_roundings in Rf by reflexivity. fold (input_roundings m x) in Rf.
    destruct (mps_forward R_ops m x g) as [[T|e] g1] eqn:Ev; cbn [fst snd] in Rv, Sv.
    - destruct (mps_forward pair_ops (pair_mps m) (with_abs x) g) as [[P|?] g2] eqn:Ep; cbn [fst snd rrel] in *; [|contradiction].
      destruct (mps_forward FL _ x g) as [[T'|?] g3] eqn:Ef; cbn [fst snd rrel] in *; [|contradiction]. subst g2 g3.
      (* the embedded input *)
      pose proof (route_rel R_ops pair_ops Gv 0 (m_path m) x (with_abs x) (tv x)) as Rr.
      unfold mps_forward in Ev, Ep. change (m_path (pair_mps m)) with (m_path m) in Ep. unfold site_input.
      destruct (route R_ops (m_path m) x) as [y|?] eqn:Ery; [|discriminate Ev]. destruct (route pair_ops (m_path m) (with_abs x)) as [y2|?] eqn:Ery2; [|discriminate Ep]. cbn [rrel] in Rr.
      pose proof (mps_embed_rel R_ops pair_ops Gv D F 0 0 0 m (pair_mps m) y y2 (mps_v D F m Hs) Rr (level_v (m_fmap m) (ndim y =? 3))) as Re.
      unfold mbind, lift in Ev, Ep. cbn [rbind].
      destruct (mps_embed R_ops m y) as [e|?] eqn:Ee; [|discriminate Ev]. destruct (mps_embed pair_ops (pair_mps m) y2) as [e2|?] eqn:Ee2; [|discriminate Ep]. cbn [rrel] in Re.
      destruct (embed_form _ _ _ _ Ee) as (F3 & F1 & F2). destruct Re as [Res Reg].
      assert (Hem : trel Gm 0 (tabs e) e2).
      { split; [exact Res|]. intros i Hi. cbn [tabs tmap get]. destruct (Reg i Hi) as [A B]. symmetry. exact (B eq_refl). }
      pose proof (mps_forward_rel R_ops pair_ops Gm D F 0 0 0 _ _ (tabs e) e2 (mps_m D F m Hs) Hem) as Rm.
      assert (N3 : (ndim (tabs e) =? 3) = true) by (change (ndim (tabs e)) with (ndim e); rewrite F3; reflexivity). rewrite N3 in Rm. specialize (Rm (Nat.le_refl 0) g). destruct Rm as [Rm Sm].
      assert (Ep2 : mps_forward pair_ops (map_mps with_abs None PNone m) e2 g = (Ok P, g1)).
      { unfold mps_forward, mbind, lift. cbn [map_mps m_path route path_true rbind]. rewrite embed_id; [exact Ep| | |];
        unfold ndim, size; rewrite <- Res; [exact F3|exact F1|exact F2]. }
      rewrite Ep2 in Rm, Sm. cbn [fst snd] in Rm, Sm. fold (magnitude m e) in Rm, Sm. destruct (magnitude m e g) as [[A|?] g4] eqn:Emag; cbn [fst snd rrel] in Rm, Sm; [|contradiction]. subst g4.
      exists T', e, A. split; [reflexivity|]. split; [reflexivity|]. split; [exact Emag|]. destruct Rf as [Rf1 Rf2], Rv as [Rv1 Rv2], Rm as [Rm1 Rm2].
      split; [congruence|]. split; [congruence|]. intros i Hi.
      destruct (Rv2 i Hi) as [Qv _]. assert (Qm : get A i = snd (get P i)) by (apply Rm2; congruence). destruct (Rf2 i) as [B1 B2]; [congruence|]. rewrite Qv, Qm. split; assumption.
    - destruct (mps_forward pair_ops (pair_mps m) (with_abs x) g) as [[P|e2] g2]; cbn [fst snd rrel] in *; [contradiction|]. subst e2 g2.
      destruct (mps_forward FL _ x g) as [[T'|e3] g3]; cbn [fst snd rrel] in *; [contradiction|]. subst e3 g3. reflexivity.
  Qed.

  (** *** TI_MPS *)
  Lemma ti_rel {S1 : sops} (G : graded S1 pair_ops) (f : tensor R_ops -> tensor S1) ff ff' m : (forall t, trel G 0 (f t) (with_abs t)) -> (forall t, shp (f t) = shp t) -> ti_sized m ->
    tirel S1 pair_ops G (t_bond m) (t_feature m) 0 (map_ti f ff m) (map_ti with_abs ff' m).
  Proof.
    intros Hf Hs (H1 & H2 & (o & H3) & H4). constructor; try reflexivity; cbn [map_ti t_core t_vec t_mat t_bias t_bond t_feature]; try apply Hf; try lia.
    - destruct (t_bias m); cbn; [apply Hf|exact Logic.I].
    - intros _. rewrite Hs, H2. cbn. lia.
    - intros _. rewrite Hs, H3. cbn. lia.
  Qed.
  Lemma ti_form (K : sops) (m : ti_mps K) i e : ti_format K m i = Ok e -> ndim e = 3 /\ size 2 e = t_feature m.
  Proof.
    assert (Hemb : forall x y, ti_embed K m x = Ok y -> ndim y = 3 /\ size 2 y = t_feature m).
    { intros x y. unfold ti_embed. destruct (ndim x =? 2); cbn [assert_ rbind]; [|discriminate]. destruct (t_fmap m) as [f|].
      - destruct (embed_map K f x) as [e0|]; cbn [rbind]; [|discriminate]. destruct (list_eqb _ _) eqn:El; cbn [assert_ rbind]; [|discriminate]. intros [= <-].
        apply list_eqb_eq in El. unfold ndim, size. rewrite El. auto.
      - destruct (Nat.eqb_spec (t_feature m) 2) as [E2|]; [|discriminate]. intros [= <-]. unfold embed_default, ndim, size. cbn. auto. }
    destruct i as [x|l]; cbn [ti_format].
    - destruct (if ndim x =? 2 then ti_embed K m x else Ok x) as [y|]; cbn [rbind]; [|discriminate].
      destruct (Nat.eqb_spec (ndim y) 3); cbn [assert_ rbind]; [|discriminate]. destruct (Nat.eqb_spec (size 2 y) (t_feature m)); cbn [assert_ rbind]; [|discriminate]. intros [= <-]. auto.
    - destruct l as [|s l]; [discriminate|]. destruct ((ndim s =? 1) || (ndim s =? 2)) eqn:N12; cbn [assert_ rbind]; [|discriminate].
      destruct (forallb (fun s1 => ndim s1 =? ndim s) (s :: l)); cbn [assert_ rbind]; [|discriminate].
      destruct ((ndim s =? 1) || forallb (fun s1 => size 1 s1 =? t_feature m) (s :: l)) eqn:Ff; cbn [assert_ rbind]; [|discriminate].
      destruct (negb (t_use_bias m && t_fixed_bias m) && _); [discriminate|].
      destruct (if t_use_bias m && t_fixed_bias m then _ else _) as [b|] eqn:Eb; cbn [rbind]; [|discriminate].
      assert (Hb : ndim b = S (ndim s) /\ (ndim s = 2 -> size 2 b = t_feature m)).
      { destruct (t_use_bias m && t_fixed_bias m).
        - injection Eb as <-. unfold pad_batch, ndim at 1, size. cbn [shp]. rewrite firstn_length. cbn [List.length]. split; [apply orb_true_iff in N12 as [Q|Q]; apply Nat.eqb_eq in Q; rewrite Q; reflexivity|].
          intros ->. reflexivity.
        - unfold stack0 in Eb. destruct (forallb (fun t => list_eqb (shp t) (shp s)) (s :: l)); [|discriminate Eb]. injection Eb as <-. split; [reflexivity|]. intros N2. unfold size. cbn [shp nth].
          rewrite N2 in Ff. cbn [Nat.eqb orb forallb] in Ff. apply andb_true_iff in Ff as [Ff _]. apply Nat.eqb_eq in Ff. exact Ff. }
      destruct Hb as [Hb1 Hb2]. destruct (Nat.eqb_spec (ndim b) 2); [intros Q; exact (Hemb b e Q)|]. intros [= <-]. apply orb_true_iff in N12 as [Q|Q]; apply Nat.eqb_eq in Q; split; [lia|lia|lia|auto].
  Qed.
  Lemma ti_format_id (K : sops) (m : ti_mps K) e : ndim e = 3 -> size 2 e = t_feature m -> ti_format K m (TTensor e) = Ok e.
  Proof. intros H3 H2. cbn [ti_format]. rewrite H3. cbn [Nat.eqb rbind]. rewrite H3, H2, !Nat.eqb_refl. reflexivity. Qed.
  Lemma ti_bind (K : sops) (m : ti_mps K) i e g : ti_format K m i = Ok e -> ti_forward K m i g = ti_forward K m (TTensor e) g.
  Proof.
    intros H. destruct (ti_form _ _ _ _ H) as [H3 H2]. unfold ti_forward. rewrite H, (ti_format_id _ _ _ H3 H2). reflexivity.
  Qed.
  Lemma ti_bind_nofmap (K : sops) (m : ti_mps K) e g ff : ndim e = 3 -> size 2 e = t_feature m ->
    ti_forward K (mkTi K (t_output m) (t_bond m) (t_feature m) (t_parallel m) (t_use_bias m) (t_fixed_bias m) (t_core m) (t_vec m) (t_mat m) (t_bias m) ff) (TTensor e) g =
    ti_forward K m (TTensor e) g.
  Proof.
    intros H3 H2. unfold ti_forward. rewrite (ti_format_id _ m _ H3 H2). rewrite ti_format_id; [reflexivity|exact H3|exact H2].
  Qed.
  Lemma in_f i : inrel FL pair_ops Gf 0 (in_on_fl fadd fmul fsub i) (pair_in i).
  Proof. destruct i as [t|l]; cbn; constructor; [apply tf|]. induction l; cbn; constructor; auto. apply tf. Qed.
  Lemma in_v i : inrel R_ops pair_ops Gv 0 i (pair_in i).
  Proof. destruct i as [t|l]; cbn; constructor; [apply tv|]. induction l; cbn; constructor; auto. apply tv. Qed.
  Lemma in_emb i : is_embedded FL (in_on_fl fadd fmul fsub i) = is_embedded R_ops i.
  Proof. destruct i as [t|[|s l]]; reflexivity. Qed.
  Lemma ti_level m i : (match t_fmap m with None => if is_embedded R_ops i then 0 else 1 | Some _ => 0 end) = ti_input_roundings m i.
  Proof.
    unfold ti_input_roundings. destruct (t_fmap m); [reflexivity|]. destruct i as [t|[|s l]]; cbn [is_embedded]; try reflexivity; [destruct (ndim t =? 2)|destruct (ndim s =? 1)]; reflexivity.
  Qed.
  Definition ti_roundings (D F kx n : nat) : nat := Nat.max 1 n * (kx + F + D + 3) + D + 1.
  Theorem ti_float m i g : ti_sized m ->
    match ti_forward R_ops m i g with
    | (Err e, g') => ti_forward FL (ti_on_fl fadd fmul fsub m) (in_on_fl fadd fmul fsub i) g = (Err e, g')
    | (Ok T, g') => exists T' e A, ti_forward FL (ti_on_fl fadd fmul fsub m) (in_on_fl fadd fmul fsub i) g = (Ok T', g') /\ ti_format R_ops m i = Ok e /\
        ti_magnitude m e g = (Ok A, g') /\ shp T' = shp T /\ shp A = shp T /\
        forall j, List.length j = List.length (shp T) ->
          (Rabs (get T' j - get T j) <= ((1 + u) ^ ti_roundings (t_bond m) (t_feature m) (ti_input_roundings m i) (size 1 e) - 1) * get A j)%R /\ (Rabs (get T j) <= get A j)%R
    end.
  Proof.
    intros Hs. set (D := t_bond m). set (F := t_feature m). set (ke := ti_input_roundings m i).
    assert (Le : elevel FL pair_ops Gf 0 ke (is_embedded FL (in_on_fl fadd fmul fsub i)) (t_fmap (ti_on_fl fadd fmul fsub m)) (t_fmap (pair_ti m))).
    { rewrite in_emb. unfold ke. rewrite <- ti_level. exact (level_f (t_fmap m) (is_embedded R_ops i)). }
    pose proof (ti_rel Gf (same_numbers fadd fmul fsub) (t_fmap m) (option_map pair_fmap (t_fmap m)) m tf (fun t => eq_refl) Hs) as Hf.
    assert (Hv : tirel R_ops pair_ops Gv D F 0 m (pair_ti m)).
    { pose proof (ti_rel Gv (fun t => t) (t_fmap m) (option_map pair_fmap (t_fmap m)) m tv (fun t => eq_refl) Hs) as H.
      replace (map_ti (fun t => t) (t_fmap m) m) with m in H; [exact H|]. destruct m as [a1 a2 a3 a4 a5 a6 a7 a8 a9 [b|] ff]; reflexivity. }
    (* the three formatted inputs *)
    pose proof (ti_format_rel FL pair_ops Gf D F 0 ke 0 _ _ _ _ Hf (in_f i) Le) as Ff.
    pose proof (ti_format_rel R_ops pair_ops Gv D F 0 0 0 _ _ _ _ Hv (in_v i) (level_v (t_fmap m) (is_embedded R_ops i))) as Fv.
    fold (pair_ti m) in Ff.
    assert (Nf : forall y, ti_format FL (ti_on_fl fadd fmul fsub m) (in_on_fl fadd fmul fsub i) = Ok y -> size 1 y <= match ti_format R_ops m i with Ok e => size 1 e | _ => 0 end).
    { intros y Ey. change (ti_format FL (map_ti (same_numbers fadd fmul fsub) (t_fmap m) m) (in_on_fl fadd fmul fsub i)) with (ti_format FL (ti_on_fl fadd fmul fsub m) (in_on_fl fadd fmul fsub i)) in Ff.
      rewrite Ey in Ff. destruct (ti_format pair_ops (pair_ti m) (pair_in i)) as [y2|]; [|contradiction]. destruct (ti_format R_ops m i) as [e|]; [|contradiction].
      unfold size. rewrite (proj1 Ff), <- (proj1 Fv). lia. }
    pose proof (ti_forward_rel FL pair_ops Gf D F 0 ke 0 _ _ _ _ _ Hf (in_f i) Le Nf g) as [Rf Sf].
    pose proof (ti_forward_rel R_ops pair_ops Gv D F 0 0 0 (match ti_format R_ops m i with Ok e => size 1 e | _ => 0 end) _ _ _ _ Hv (in_v i) (level_v (t_fmap m) (is_embedded R_ops i))) as Rv'.
    assert (Nv : forall y, ti_format R_ops m i = Ok y -> size 1 y <= match ti_format R_ops m i with Ok e => size 1 e | _ => 0 end) by (intros y ->; lia). specialize (Rv' Nv g). destruct Rv' as [Rv Sv].
    change (map_ti (same_numbers fadd fmul fsub) (t_fmap m) m) with (ti_on_fl fadd fmul fsub m) in Rf, Sf.
    change (map_ti with_abs (option_map pair_fmap (t_fmap m)) m) with (pair_ti m) in Rf, Sf.
    destruct (ti_forward R_ops m i g) as [[T|e] g1] eqn:Ev; cbn [fst snd] in Rv, Sv.
    - destruct (ti_forward pair_ops (pair_ti m) (pair_in i) g) as [[P|?] g2] eqn:Ep; cbn [fst snd rrel] in *; [|contradiction].
      destruct (ti_forward FL _ _ g) as [[T'|?] g3] eqn:Ef; cbn [fst snd rrel] in *; [|contradiction]. subst g2 g3.
      destruct (ti_format R_ops m i) as [e|?] eqn:Ee; [|unfold ti_forward in Ev; rewrite Ee in Ev; discriminate Ev].
      destruct (ti_format pair_ops (pair_ti m) (pair_in i)) as [e2|?] eqn:Ee2; cbn [rrel] in Fv; [|contradiction].
      destruct (ti_form _ _ _ _ Ee) as [F3 F2]. destruct Fv as [Res Reg].
      assert (Hem : trel Gm 0 (tabs e) e2).
      { split; [exact Res|]. intros j Hj. cbn [tabs tmap get]. destruct (Reg j Hj) as [A B]. symmetry. exact (B eq_refl). }
      pose proof (ti_rel Gm tabs None None m tm (fun t => eq_refl) Hs) as Hm.
      pose proof (ti_forward_rel R_ops pair_ops Gm D F 0 0 0 (size 1 e) _ _ _ _ Hm (ir_tensor _ _ _ _ _ _ Hem)) as Rm. cbn [is_embedded] in Rm.
      assert (N3 : (ndim (tabs e) =? 2) = false) by (change (ndim (tabs e)) with (ndim e); rewrite F3; reflexivity). rewrite N3 in Rm. cbn [negb] in Rm. specialize (Rm (Nat.le_refl 0)).
      assert (Nm : forall y, ti_format R_ops (map_ti tabs None m) (TTensor (tabs e)) = Ok y -> size 1 y <= size 1 e).
      { intros y. rewrite ti_format_id; [|exact F3|exact F2]. intros [= <-]. apply Nat.le_refl. }
      specialize (Rm Nm g). destruct Rm as [Rm Sm].
      assert (G3 : ndim e2 = 3) by (unfold ndim; rewrite <- Res; exact F3). assert (G2 : size 2 e2 = t_feature m) by (unfold size; rewrite <- Res; exact F2).
      assert (Ep2 : ti_forward pair_ops (map_ti with_abs None m) (TTensor e2) g = (Ok P, g1)).
      { rewrite <- Ep, (ti_bind _ _ _ _ g Ee2). exact (ti_bind_nofmap pair_ops (pair_ti m) e2 g None G3 G2). }
      rewrite Ep2 in Rm, Sm. cbn [fst snd] in Rm, Sm. fold (ti_magnitude m e) in Rm, Sm. destruct (ti_magnitude m e g) as [[A|?] g4] eqn:Emag; cbn [fst snd rrel] in Rm, Sm; [|contradiction]. subst g4.
      exists T', e, A. split; [reflexivity|]. split; [reflexivity|]. split; [exact Emag|]. destruct Rf as [Rf1 Rf2], Rv as [Rv1 Rv2], Rm as [Rm1 Rm2].
      split; [congruence|]. split; [congruence|]. intros j Hj.
      destruct (Rv2 j Hj) as [Qv _]. assert (Qm : get A j = snd (get P j)) by (apply Rm2; congruence).
      assert (Qf : near (ticost D F 0 ke (size 1 e)) (get T' j) (get P j)) by (apply Rf2; congruence). destruct Qf as [B1 B2].
      replace (ticost D F 0 ke (size 1 e)) with (ti_roundings D F ke (size 1 e)) in B1 by (unfold ticost, ti_roundings; lia). rewrite Qv, Qm. split; assumption.
    - destruct (ti_forward pair_ops (pair_ti m) (pair_in i) g) as [[P|e2] g2]; cbn [fst snd rrel] in *; [contradiction|]. subst e2 g2.
      destruct (ti_forward FL _ _ g) as [[T'|e3] g3]; cbn [fst snd rrel] in *; [contradiction|]. subst e3 g3. reflexivity.
  Qed.
End Float.
