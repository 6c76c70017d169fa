(** * ParamRed: MatRegion products, dispatch, and the reduction of lists of contractables in two arithmetics *)
From Verif Require Import Base Scalars Tensor EinsumProofs Contractables Utils TorchMps SvdProofs Param EinStr ParamMul.

Section ParamRed.
  Variables (S1 S2 : sops) (G : graded S1 S2) (D : nat).
  Notation E := (gE G).
  Notation trel := (trel G).
  Notation arel := (arel S1 S2 G D).
  Notation crel := (crel S1 S2 G D).
  Notation weight := (weight S1).
  Notation orel := (orel S1 S2).

  Lemma rrel_and {A B} (P : A -> B -> Prop) (Q : A -> Prop) r r' : rrel P r r' -> (forall a, r = Ok a -> Q a) -> rrel (fun a b => P a b /\ Q a) r r'.
  Proof. intros H HQ. destruct r, r'; cbn in *; auto. Qed.
  Lemma bmm_rel k k' a b a' b' : trel k a a' -> trel k' b b' -> (forall b1 n m, shp a = [b1; n; m] -> m <= D) ->
    rrel (trel (S (k + k') + D)) (bmm S1 a b) (bmm S2 a' b').
  Proof.
    intros [Ha Ga] [Hb Gb] Hm. unfold bmm. rewrite <- Ha, <- Hb.
    destruct (shp a) as [|b1 [|n [|m [|]]]] eqn:Ea; try reflexivity. destruct (shp b) as [|b2 [|m' [|p [|]]]] eqn:Eb; try reflexivity.
    destruct ((b1 =? b2) && (m =? m')); [|reflexivity]. cbn [rrel]. split; [reflexivity|]. intros i _. cbn [get].
    eapply E_mono; [|apply (E_bsum S1 S2 G _ (S (k + k')))]; [specialize (Hm b1 n m eq_refl); lia|]. intros j. apply E_mul; [apply Ga|apply Gb]; reflexivity.
  Qed.
  Lemma bmm_shape (S : sops) (a b c : tensor S) b1 n m b2 m' p : bmm S a b = Ok c -> shp a = [b1; n; m] -> shp b = [b2; m'; p] -> shp c = [b1; n; p].
  Proof.
    unfold bmm. intros H Ha Hb. rewrite Ha, Hb in H. destruct (_ && _); [|discriminate H]. injection H as <-. reflexivity.
  Qed.
  Definition vec_shape (rmul : bool) (sh : list nat) : Prop := exists b p, p <= D /\ sh = if rmul then [b; 1; p] else [b; p; 1].
  Definition mat_shape (sh : list nat) : Prop := exists b l r, l <= D /\ r <= D /\ sh = [b; l; r].
  Lemma bmm_all_rel rmul k : forall ms ms' kv vec vec', trel kv vec vec' -> vec_shape rmul (shp vec) ->
    Forall2 (fun m m' => trel k m m' /\ mat_shape (shp m)) ms ms' ->
    rrel (fun v v' => trel (kv + List.length ms * (k + 1 + D)) v v' /\ vec_shape rmul (shp v)) (bmm_all S1 rmul vec ms) (bmm_all S2 rmul vec' ms').
  Proof.
    induction ms as [|m ms IH]; intros ms' kv vec vec' Hv Hs F; inversion F as [|? m' ? ms2 [Hm (b & l & r & Hl & Hr & Em)] F']; subst; cbn [bmm_all].
    - cbn [List.length Nat.mul rrel]. rewrite Nat.add_0_r. auto.
    - destruct Hs as (bv & p & Hp & Ev).
      eapply (rrel_bind (fun v v' => trel (S (kv + k) + D) v v' /\ vec_shape rmul (shp v))).
      + destruct rmul.
        * apply rrel_and; [apply bmm_rel; [exact Hv|exact Hm|]; intros ? ? ? Q; rewrite Ev in Q; injection Q as <- <- <-; exact Hp|].
          intros v Eb. exists bv, r. split; [exact Hr|]. exact (bmm_shape S1 _ _ _ _ _ _ _ _ _ Eb Ev Em).
        * replace (S (kv + k)) with (S (k + kv)) by lia.
          apply rrel_and; [apply bmm_rel; [exact Hm|exact Hv|]; intros ? ? ? Q; rewrite Em in Q; injection Q as <- <- <-; exact Hr|].
          intros v Eb. exists b, l. split; [exact Hl|]. exact (bmm_shape S1 _ _ _ _ _ _ _ _ _ Eb Em Ev).
      + intros v v' _ _ [Hv' Hs']. pose proof (IH ms2 _ v v' Hv' Hs' F') as X. eapply rrel_impl; [|exact X]. intros u u' [U1 U2]. split; [|exact U2].
        eapply trel_mono; [|exact U1]. cbn [List.length]. lia.
  Qed.
  Lemma region_shape a a' k : arel k a a' -> a_cls a = KMatRegion -> exists b n l, l <= D /\ shp (a_ten a) = [b; n; l; l].
  Proof.
    intros (_ & _ & _ & W) Hc. pose proof (wf_region _ _ _ _ W Hc) as [Eb Esq]. pose proof (wf_len _ _ _ _ W) as L. pose proof (wf_D _ _ _ _ W) as HD.
    rewrite Eb in L, HD. cbn in L. destruct (shp (a_ten a)) as [|b [|n [|l [|r [|]]]]]; try discriminate L.
    exists b, n, l. split; [apply (HD "l"%char); cbn; auto|]. cbn in Esq. congruence.
  Qed.
  Lemma edge_shape a a' k : arel k a a' -> a_cls a = KEdgeVec -> exists b p, p <= D /\ shp (a_ten a) = [b; p].
  Proof.
    intros (_ & _ & _ & W) Hc. pose proof (wf_edge _ _ _ _ W Hc) as Eb. pose proof (wf_len _ _ _ _ W) as L. pose proof (wf_D _ _ _ _ W) as HD.
    destruct Eb as [Eb|Eb]; rewrite Eb in L, HD; cbn in L; destruct (shp (a_ten a)) as [|b [|p [|]]]; try discriminate L; exists b, p; split; try reflexivity.
    - apply (HD "r"%char); cbn; auto.
    - apply (HD "l"%char); cbn; auto.
  Qed.
  (** the result of a product: an atom, never a region, and a scalar only if both factors are edge vectors *)
  Definition pres (c : nat) (both : Prop) (a : atom S1) (a' : atom S2) : Prop :=
    crel c a a' /\ a_cls a <> KMatRegion /\ (a_cls a = KScalar -> both).

  Lemma region_mul_rel rmul cx cy x x' y y' both : a_cls x = KMatRegion -> crel cx x x' -> crel cy y y' ->
    mrel (orel (pres (cx + cy) both)) (region_mul S1 rmul x (Atom y)) (region_mul S2 rmul x' (Atom y')).
  Proof.
    intros Hx (k & Hk & Ax) Cy. unfold weight in Hk. rewrite Hx in Hk. apply crel_level in Cy as (k' & Hk' & Ay).
    unfold region_mul. pose proof Ay as (Cl & _ & Ty & _). rewrite <- Cl. destruct (a_cls y) eqn:Ey; try (apply mrel_ret; exact I).
    destruct (region_shape _ _ _ Ax Hx) as (b & n & l & Hl & Es). destruct (edge_shape _ _ _ Ay Ey) as (b' & p & Hp & Es').
    pose proof Ax as (_ & _ & Tx & _). cbv zeta. rewrite <- (trel_shp _ _ _ _ _ _ Tx). rewrite Es in *. cbn [nth] in *.
    destruct (Nat.eqb_spec n 0) as [->|Nn]; [apply mrel_raise|].
    assert (FM : Forall2 (fun m m' => trel k m m' /\ mat_shape (shp m)) (map (fun k => selE 2 (a_ten x) k) (seq 0 n)) (map (fun k => selE 2 (a_ten x') k) (seq 0 n))).
    { generalize (seq 0 n) as q. intros q. induction q as [|j q IH]; constructor; [|exact IH]. split.
      - apply trel_selE; [|exact Tx]. unfold ndim. rewrite Es. cbn. lia.
      - exists b, l, l. split; [exact Hl|]. split; [exact Hl|]. cbn [selE shp]. rewrite Es. reflexivity. }
    assert (FM' : Forall2 (fun m m' => trel k m m' /\ mat_shape (shp m))
       (if rmul then map (fun k => selE 2 (a_ten x) k) (seq 0 n) else rev (map (fun k => selE 2 (a_ten x) k) (seq 0 n)))
       (if rmul then map (fun k => selE 2 (a_ten x') k) (seq 0 n) else rev (map (fun k => selE 2 (a_ten x') k) (seq 0 n)))).
    { destruct rmul; [exact FM|]. clear -FM. induction FM; cbn [rev]; [constructor|]. apply Forall2_app; [assumption|]. constructor; [assumption|constructor]. }
    assert (TV : trel k' (unsqE (if rmul then 1 else 0) (a_ten y)) (unsqE (if rmul then 1 else 0) (a_ten y'))).
    { apply trel_unsqE; [|exact Ty]. unfold ndim. rewrite Es'. destruct rmul; cbn; lia. }
    eapply mrel_bind; [apply mrel_lift; eapply bmm_all_rel; [exact TV| |exact FM']|].
    { exists b', p. split; [exact Hp|]. cbn [unsqE shp]. rewrite Es'. destruct rmul; reflexivity. }
    intros v v' [Tv (bv & pv & Hpv & Ev)].
    assert (Ln : List.length (if rmul then map (fun k0 : nat => selE 2 (a_ten x) k0) (seq 0 n) else rev (map (fun k0 : nat => selE 2 (a_ten x) k0) (seq 0 n))) = n).
    { destruct rmul; [|rewrite rev_length]; rewrite map_length, seq_length; reflexivity. }
    rewrite Ln in Tv.
    eapply some_atom_rel; [|eapply (edge_vec_rel S1 S2 G D (k' + n * (k + 1 + D)))].
    - intros a a' [Aa Ca]. split; [|rewrite Ca; split; [discriminate|discriminate]]. eapply crel_one; [rewrite Ca; discriminate| |exact Aa].
      replace (Nat.max 1 n) with n in Hk by lia. lia.
    - apply trel_squeezeE; [|exact Tv]. unfold ndim. rewrite Ev. destruct rmul; cbn; lia.
    - intros _. unfold squeezeE. rewrite Ev. destruct rmul; cbn; exact Hpv.
  Qed.
  Lemma edge_mul_rel cx cy x x' y y' : a_cls x = KEdgeVec -> crel cx x x' -> crel cy y y' ->
    mrel (orel (pres (cx + cy) (a_cls x = KEdgeVec /\ a_cls y = KEdgeVec))) (edge_mul S1 x (Atom y)) (edge_mul S2 x' (Atom y')).
  Proof.
    intros Hx Cx Cy. apply crel_level in Cx as (k & Hk & Ax). apply crel_level in Cy as (k' & Hk' & Ay).
    unfold edge_mul. pose proof Ay as (Cl & _ & Ty & _). pose proof Ax as (_ & _ & Tx & _). rewrite <- Cl. destruct (a_cls y) eqn:Ey; try (apply mrel_ret; exact I).
    destruct (edge_shape _ _ _ Ax Hx) as (b & p & Hp & Es). destruct (edge_shape _ _ _ Ay Ey) as (b' & p' & Hp' & Es').
    cbv zeta. eapply mrel_bind.
    { apply mrel_lift. apply (rrel_and (trel (S (k + k') + D)) (fun s => List.length (shp s) = 3)); [apply bmm_rel; [apply (trel_unsqE _ _ _ k); [|exact Tx]; unfold ndim; rewrite Es; cbn; lia|apply (trel_unsqE _ _ _ k'); [|exact Ty]; unfold ndim; rewrite Es'; cbn; lia|]|].
      - intros b1 n m Q. cbn [unsqE shp] in Q. rewrite Es in Q. injection Q as <- <- <-. exact Hp.
      - intros c Ec. rewrite (bmm_shape S1 _ _ _ b 1 p b' p' 1 Ec); [reflexivity| |]; cbn [unsqE shp]; [rewrite Es|rewrite Es']; reflexivity. }
    intros s s' [[_ Gs] Ls]. eapply some_atom_rel; [|eapply (scalar_rel S1 S2 G D (S (k + k') + D))].
    - intros a a' [Aa Ca]. split; [|rewrite Ca; split; [discriminate|auto]]. eapply crel_one; [rewrite Ca; discriminate| |exact Aa]. lia.
    - split; [cbn [shp unsqE]; rewrite (trel_shp _ _ _ _ _ _ Tx); reflexivity|]. intros i _. cbn [get]. apply Gs. rewrite Ls. reflexivity.
  Qed.

  (** ** Python's dispatch *)
  Definition non_scalar (a : atom S1) : Prop := a_cls a <> KScalar.
  Lemma base_pres rmul cx cy x x' y y' both : crel cx x x' -> crel cy y y' ->
    mrel (orel (pres (cx + cy) both)) (base_mul S1 rmul x (Atom y)) (base_mul S2 rmul x' (Atom y')).
  Proof.
    intros Cx Cy. apply crel_level in Cx as (k & Hk & Ax). apply crel_level in Cy as (k' & Hk' & Ay).
    eapply mrel_impl; [|eapply base_mul_rel; [exact Ax|exact Ay]]. intros o o' H. unfold ParamMul.orel in *.
    destruct o as [[a| |]|], o' as [[a'| |]|]; auto. destruct H as (Aa & N1 & N2). split; [|split; [exact N1|intros Q; contradiction]].
    eapply crel_one; [exact N1| |exact Aa]. lia.
  Qed.
  Lemma outmat_pres rmul cx cy x x' y y' both : crel cx x x' -> crel cy y y' ->
    mrel (orel (pres (cx + cy) both)) (outmat_mul S1 rmul x (Atom y)) (outmat_mul S2 rmul x' (Atom y')).
  Proof.
    intros Cx Cy. unfold outmat_mul. assert (Cl : a_cls y = a_cls y') by (destruct Cy as (? & _ & Q); apply Q). rewrite <- Cl.
    destruct (a_cls y); try apply mrel_raise. apply base_pres; assumption.
  Qed.
  Lemma lmul_pres cx cy x x' y y' : non_scalar x -> crel cx x x' -> crel cy y y' ->
    mrel (orel (pres (cx + cy) (a_cls x = KEdgeVec /\ a_cls y = KEdgeVec))) (lmul_method S1 (Atom x) (Atom y)) (lmul_method S2 (Atom x') (Atom y')).
  Proof.
    intros Nx Cx Cy. unfold lmul_method. assert (Cl : a_cls x = a_cls x') by (destruct Cx as (? & _ & Q); apply Q). rewrite <- Cl.
    destruct (a_cls x) eqn:Ex; try (apply base_pres; assumption).
    - apply region_mul_rel; assumption.
    - apply outmat_pres; assumption.
    - pose proof (edge_mul_rel cx cy x x' y y' Ex Cx Cy) as X. rewrite Ex in X. exact X.
    - contradiction.
  Qed.
  Lemma rmul_pres cx cy x x' y y' both : non_scalar x -> crel cx x x' -> crel cy y y' ->
    mrel (orel (pres (cx + cy) both)) (rmul_method S1 (Atom x) (Atom y)) (rmul_method S2 (Atom x') (Atom y')).
  Proof.
    intros Nx Cx Cy. unfold rmul_method. assert (Cl : a_cls x = a_cls x') by (destruct Cx as (? & _ & Q); apply Q). rewrite <- Cl.
    destruct (a_cls x) eqn:Ex; try (apply base_pres; assumption).
    - apply region_mul_rel; assumption.
    - apply outmat_pres; assumption.
    - apply mrel_raise.
    - contradiction.
  Qed.
  Definition atomrel (Q : atom S1 -> atom S2 -> Prop) (c : contr S1) (c' : contr S2) : Prop :=
    match c, c' with Atom a, Atom a' => Q a a' | _, _ => False end.
  Lemma or_else_rel Q m m' h h' : mrel (orel Q) m m' -> mrel (orel Q) h h' -> mrel (atomrel Q) (or_else S1 m h) (or_else S2 m' h').
  Proof.
    intros Hm Hh. unfold or_else. eapply mrel_bind; [exact Hm|]. intros o o' Ho. unfold ParamMul.orel in Ho.
    destruct o as [[a| |]|], o' as [[a'| |]|]; try contradiction; [apply mrel_ret; exact Ho|].
    eapply mrel_bind; [exact Hh|]. clear. intros o o' Ho. unfold ParamMul.orel in Ho.
    destruct o as [[a| |]|], o' as [[a'| |]|]; try contradiction; [apply mrel_ret; exact Ho|apply mrel_raise].
  Qed.
  Lemma mul_rel cx cy x x' y y' : non_scalar x -> non_scalar y -> crel cx x x' -> crel cy y y' ->
    mrel (atomrel (pres (cx + cy) (a_cls x = KEdgeVec /\ a_cls y = KEdgeVec))) (mul S1 (Atom x) (Atom y)) (mul S2 (Atom x') (Atom y')).
  Proof.
    intros Nx Ny Cx Cy. assert (Clx : a_cls x = a_cls x') by (destruct Cx as (? & _ & Q); apply Q). assert (Cly : a_cls y = a_cls y') by (destruct Cy as (? & _ & Q); apply Q).
    unfold mul. replace (same_class S2 (Atom x') (Atom y')) with (same_class S1 (Atom x) (Atom y)) by (cbn; rewrite Clx, Cly; reflexivity).
    replace (right_first S2 (Atom x') (Atom y')) with (right_first S1 (Atom x) (Atom y)) by (cbn; rewrite Clx, Cly; reflexivity).
    pose proof (lmul_pres cx cy x x' y y' Nx Cx Cy) as L. pose proof (rmul_pres cy cx y y' x x' (a_cls x = KEdgeVec /\ a_cls y = KEdgeVec) Ny Cy Cx) as R. rewrite Nat.add_comm in R.
    destruct (same_class _ _ _); [apply or_else_rel; [exact L|apply mrel_ret; exact I]|].
    destruct (right_first _ _ _); apply or_else_rel; assumption.
  Qed.

  (** ** MatRegion.reduce *)
  (** the grade of an entry depends on the matrix it belongs to *)
  Definition frel (f : nat -> nat) (t : tensor S1) (t' : tensor S2) : Prop :=
    shp t = shp t' /\ forall i, List.length i = 4 -> E (f (nth 1 i 0)) (get t i) (get t' i).
  Definition halved (half : nat) (f : nat -> nat) (p : nat) : nat := if p <? half then S (f (2 * p) + f (2 * p + 1)) + D else f (2 * half + (p - half)).
  Fixpoint nsum (n : nat) (f : nat -> nat) : nat := match n with 0 => 0 | S m => nsum m f + f m end.
  Lemma nsum_app n m f : nsum (n + m) f = nsum n f + nsum m (fun p => f (n + p)).
  Proof. induction m as [|m IH]; [rewrite Nat.add_0_r; cbn; lia|]. rewrite Nat.add_succ_r. cbn [nsum]. rewrite IH. lia. Qed.
  Lemma nsum_ext n f g : (forall p, p < n -> f p = g p) -> nsum n f = nsum n g.
  Proof. induction n as [|n IH]; intros H; [reflexivity|]. cbn [nsum]. rewrite IH by (intros; apply H; lia). rewrite H by lia. reflexivity. Qed.
  Lemma nsum_double n f : nsum (2 * n) f = nsum n (fun p => f (2 * p) + f (2 * p + 1)).
  Proof.
    induction n as [|n IH]; [reflexivity|]. replace (2 * S n) with (S (S (2 * n))) by lia. cbn [nsum]. rewrite IH. replace (S (2 * n)) with (2 * n + 1) by lia. lia.
  Qed.
  (** pairing matrices keeps the sum of the costs *)
  Lemma halved_sum size f : nsum (size / 2 + size mod 2) (fun p => halved (size / 2) f p + 1 + D) = nsum size (fun p => f p + 1 + D).
  Proof.
    pose proof (Nat.div_mod size 2 ltac:(lia)) as Es. set (h := size / 2) in *. set (r := size mod 2) in *. rewrite Es.
    rewrite !nsum_app. f_equal.
    - rewrite nsum_double. apply nsum_ext. intros p Hp. unfold halved. destruct (Nat.ltb_spec p h); lia.
    - apply nsum_ext. intros p Hp. unfold halved. destruct (Nat.ltb_spec (h + p) h); [lia|]. do 3 f_equal. lia.
  Qed.
  Lemma idx4 (i : list nat) : List.length i = 4 -> exists a b c d, i = [a; b; c; d].
  Proof. destruct i as [|a [|b [|c [|d [|]]]]]; intros H; try discriminate H. exists a, b, c, d. reflexivity. Qed.

  Lemma pair_rel f h b n d t t' : frel f t t' -> shp t = [b; n; d; d] -> d <= D ->
    exists m m', einsum "bslu,bsur->bslr" [sliceE 2 h (fun p => 2 * p) t; sliceE 2 h (fun p => 2 * p + 1) t] = Ok m /\
      einsum "bslu,bsur->bslr" [sliceE 2 h (fun p => 2 * p) t'; sliceE 2 h (fun p => 2 * p + 1) t'] = Ok m' /\
      shp m = [b; h; d; d] /\ shp m' = [b; h; d; d] /\
      forall i, List.length i = 4 -> nth 1 i 0 < h -> E (S (f (2 * nth 1 i 0) + f (2 * nth 1 i 0 + 1)) + D) (get m i) (get m' i).
  Proof.
    intros [Hs Hg] Es HD. rewrite Es in Hs. symmetry in Hs.
    assert (A1 : forall q, shp (sliceE 2 h q t) = [b; h; d; d]) by (intros q; cbn [sliceE shp]; rewrite Es; reflexivity).
    assert (A2 : forall q, shp (sliceE 2 h q t') = [b; h; d; d]) by (intros q; cbn [sliceE shp]; rewrite Hs; reflexivity).
    pose proof (A1 (fun p => 2 * p)) as X1. pose proof (A1 (fun p => 2 * p + 1)) as X2. pose proof (A2 (fun p => 2 * p)) as Y1. pose proof (A2 (fun p => 2 * p + 1)) as Y2.
    assert (G1 : forall q x p y z, get (sliceE 2 h q t) [x; p; y; z] = get t [x; q p; y; z]) by reflexivity.
    assert (G2 : forall q x p y z, get (sliceE 2 h q t') [x; p; y; z] = get t' [x; q p; y; z]) by reflexivity.
    revert X1 X2 Y1 Y2. pose proof (G1 (fun p => 2 * p)) as G1e. pose proof (G1 (fun p => 2 * p + 1)) as G1o. pose proof (G2 (fun p => 2 * p)) as G2e. pose proof (G2 (fun p => 2 * p + 1)) as G2o.
    revert G1e G1o G2e G2o. clear A1 A2 G1 G2.
    generalize (sliceE 2 h (fun p => 2 * p) t) as te. generalize (sliceE 2 h (fun p => 2 * p + 1) t) as to. generalize (sliceE 2 h (fun p => 2 * p) t') as te'. generalize (sliceE 2 h (fun p => 2 * p + 1) t') as to'.
    intros to' te' to te G1e G1o G2e G2o X1 X2 Y1 Y2. clear Hs Es.
    assert (Ev : forall (S : sops) (u v : tensor S), shp u = [b; h; d; d] -> shp v = [b; h; d; d] -> exists m, einsum "bslu,bsur->bslr" [u; v] = Ok m /\ shp m = [b; h; d; d] /\
              forall x p y z, p < h -> get m [x; p; y; z] = bsum d (fun k => smul (get u [bidx b x; p; bidx d y; bidx d k]) (get v [bidx b x; p; bidx d k; bidx d z]))).
    { clear. intros S u v Hu Hv. eins_open. eexists. split; [reflexivity|]. split; [reflexivity|]. intros x p y z Hp. eins_get. rewrite !(bidx_valid h) by exact Hp. reflexivity. }
    destruct (Ev S1 te to X1 X2) as (m & Em & Sm & Gm). destruct (Ev S2 te' to' Y1 Y2) as (m' & Em' & Sm' & Gm').
    exists m, m'. do 4 (split; [assumption|]). intros i Hi Hp. destruct (idx4 i Hi) as (x & p & y & z & ->). cbn [nth] in *. rewrite Gm, Gm' by exact Hp.
    eapply E_mono; [|apply (E_bsum S1 S2 G d (S (f (2 * p) + f (2 * p + 1))))]; [lia|]. intros k. rewrite G1e, G1o, G2e, G2o.
    apply E_mul; [apply (Hg [_; 2 * p; _; _])|apply (Hg [_; 2 * p + 1; _; _])]; reflexivity.
  Qed.
  Lemma region_loop_rel fuel : forall size f b n d t t', frel f t t' -> shp t = [b; n; d; d] -> d <= D -> n = size -> size <= fuel ->
    rrel (fun m m' => exists f', frel f' m m' /\ nsum (Nat.min size 1) (fun p => f' p + 1 + D) = nsum size (fun p => f p + 1 + D) /\ shp m = [b; Nat.min size 1; d; d])
      (region_loop S1 fuel size t) (region_loop S2 fuel size t').
  Proof.
    induction fuel as [|fuel IH]; intros size f b n d t t' Hf Es HD Hn Hfu; cbn [region_loop];
      (destruct (Nat.leb_spec size 1) as [H1|H1]; [cbn [rrel]; exists f; split; [exact Hf|]; rewrite Nat.min_l by exact H1; split; [reflexivity|congruence]|]).
    - lia.
    - cbv zeta. pose proof Hf as [Hs Hg]. rewrite <- Hs, Es. cbn [nth]. subst n.
      destruct (pair_rel f (size / 2) b size d t t' Hf Es HD) as (m & m' & Em & Em' & Sm & Sm' & Gm).
      rewrite Em, Em'. cbn [rbind].
      set (lo := sliceE 2 (size - 2 * (size / 2)) (fun p => 2 * (size / 2) + p) t). set (lo' := sliceE 2 (size - 2 * (size / 2)) (fun p => 2 * (size / 2) + p) t').
      assert (Er : size - 2 * (size / 2) = size mod 2) by (pose proof (Nat.div_mod size 2 ltac:(lia)); lia).
      assert (Sl : shp lo = [b; size mod 2; d; d]) by (unfold lo; cbn [sliceE shp]; rewrite Es, <- Er; reflexivity).
      assert (Sl' : shp lo' = [b; size mod 2; d; d]) by (unfold lo'; cbn [sliceE shp]; rewrite <- Hs, Es, <- Er; reflexivity).
      assert (C : forall (S : sops) (u v : tensor S), shp u = [b; size / 2; d; d] -> shp v = [b; size mod 2; d; d] ->
                cat2E 2 u v = Ok (mkT [b; size / 2 + size mod 2; d; d] (fun i => let p := nth 0 (lastn 3 i) 0 in if p <? size / 2 then get u i else get v (droplast 3 i ++ [p - size / 2] ++ lastn 2 i)))).
      { clear. intros S u v Hu Hv. unfold cat2E, ndim. rewrite Hu, Hv. change (droplast 3 [b; size / 2; d; d]) with [b]. change (droplast 3 [b; size mod 2; d; d]) with [b].
        change (lastn 2 [b; size / 2; d; d]) with [d; d]. change (lastn 2 [b; size mod 2; d; d]) with [d; d]. rewrite !list_eqb_refl. reflexivity. }
      rewrite (C S1 m lo Sm Sl), (C S2 m' lo' Sm' Sl'). cbn [rbind].
      assert (Hlt : size / 2 + size mod 2 < size).
      { pose proof (Nat.div_mod size 2 ltac:(lia)). pose proof (Nat.mod_upper_bound size 2 ltac:(lia)). lia. }
      eapply rrel_impl; [|eapply (IH (size / 2 + size mod 2) (halved (size / 2) f) b (size / 2 + size mod 2) d)]; [| |reflexivity|exact HD|reflexivity|lia].
      + intros u u' (f' & F1 & F2 & F3). exists f'. split; [exact F1|].
        assert (Mn : Nat.min (size / 2 + size mod 2) 1 = Nat.min size 1).
        { pose proof (Nat.div_mod size 2 ltac:(lia)). lia. }
        rewrite Mn in F2, F3. split; [|exact F3]. rewrite F2. apply halved_sum.
      + split; [reflexivity|]. intros i Hi. cbn [get]. destruct (idx4 i Hi) as (x & p & y & z & ->).
        change (lastn 3 [x; p; y; z]) with [p; y; z]. change (droplast 3 [x; p; y; z]) with [x]. change (lastn 2 [x; p; y; z]) with [y; z]. cbn [nth app].
        unfold halved. destruct (Nat.ltb_spec p (size / 2)) as [Hp|Hp]; [apply (Gm [x; p; y; z] eq_refl Hp)|].
        unfold lo, lo'. cbn [sliceE get]. change (lastn 3 [x; p - size / 2; y; z]) with [p - size / 2; y; z]. change (droplast 3 [x; p - size / 2; y; z]) with [x].
        change (lastn 2 [x; p - size / 2; y; z]) with [y; z]. cbn [nth app]. apply (Hg [x; 2 * (size / 2) + (p - size / 2); y; z] eq_refl).
  Qed.
  Lemma nsum_const n c : nsum n (fun _ => c) = n * c.
  Proof. induction n as [|n IH]; [reflexivity|]. cbn [nsum]. rewrite IH. lia. Qed.
  Lemma region_reduce_rel c a a' : a_cls a = KMatRegion -> crel c a a' ->
    mrel (fun z z' => crel c z z' /\ a_cls z = KSingleMat) (region_reduce S1 a) (region_reduce S2 a').
  Proof.
    intros Hc (k & Hk & A). destruct (region_shape _ _ _ A Hc) as (b & n & d & Hd & Es). pose proof A as (_ & _ & T & _).
    unfold weight in Hk. rewrite Hc, Es in Hk. cbn [nth] in Hk.
    unfold region_reduce. rewrite <- (trel_shp _ _ _ _ _ _ T), Es. cbn [nth].
    assert (F : frel (fun _ => k) (a_ten a) (a_ten a')) by (split; [apply T|]; intros i Hi; apply T; rewrite Es; exact Hi).
    eapply mrel_bind; [apply mrel_lift; eapply (region_loop_rel n n _ b n d); [exact F|exact Es|exact Hd|reflexivity|reflexivity]|].
    intros m m' (f & [Fs Fg] & Fn & Sm). rewrite nsum_const in Fn.
    destruct n as [|n].
    - (* no matrices: rejected by SingleMat *)
      cbn [Nat.min] in Sm. unfold squeezeE. rewrite <- Fs, Sm. cbn [dimE rev app nth Nat.eqb]. unfold single_mat, ndim. rewrite <- Fs, Sm. cbn [List.length Nat.eqb orb]. apply mrel_raise.
    - cbn [Nat.min nsum Nat.add] in Fn, Sm. replace (Nat.min n 0) with 0 in Sm by lia. rewrite Nat.min_0_r in Fn. cbn [nsum] in Fn.
      assert (Sq : forall (S : sops) (u : tensor S), shp u = [b; 1; d; d] -> squeezeE 2 u = mkT [b; d; d] (fun i => get u (droplast 2 i ++ [0] ++ lastn 2 i))).
      { intros S u Hu. unfold squeezeE. rewrite Hu. reflexivity. }
      rewrite (Sq S1 m Sm), (Sq S2 m') by congruence.
      eapply mrel_impl; [|eapply (single_mat_rel S1 S2 G D (f 0))].
      + intros z z' [Az Cz]. split; [|exact Cz]. eapply crel_one; [rewrite Cz; discriminate| |exact Az]. replace (Nat.max 1 (S n)) with (S n) in Hk by lia. lia.
      + split; [reflexivity|]. intros i Hi. cbn [shp List.length] in Hi. cbn [get]. destruct i as [|x [|y [|z [|]]]]; try discriminate Hi.
        apply (Fg [x; 0; y; z] eq_refl).
      + intros _. cbn [shp]. auto.
  Qed.

  (** ** ContractableList.reduce on a list of contractables *)
  (** total cost *)
  Inductive lrel : nat -> list (atom S1) -> list (atom S2) -> Prop :=
  | lrel_nil : lrel 0 [] []
  | lrel_cons c n a a' l l' : crel c a a' -> lrel n l l' -> lrel (c + n) (a :: l) (a' :: l').
  Lemma lrel_app c l l' : lrel c l l' -> forall n m m', lrel n m m' -> lrel (c + n) (l ++ m) (l' ++ m').
  Proof. induction 1 as [|c n a a' l l' Ha Hl IH]; intros k m m' Hm; cbn [app]; [exact Hm|]. rewrite <- Nat.add_assoc. constructor; [exact Ha|apply IH, Hm]. Qed.
  Lemma lrel_app_inv l1 : forall c l2 l', lrel c (l1 ++ l2) l' -> exists c1 c2 m1 m2, c = c1 + c2 /\ l' = m1 ++ m2 /\ lrel c1 l1 m1 /\ lrel c2 l2 m2.
  Proof.
    induction l1 as [|a l1 IH]; intros c l2 l' H; cbn [app] in H.
    - exists 0, c, [], l'. repeat split; auto. constructor.
    - inversion H as [|ca n ? a' ? l1' Ha Hl]; subst. destruct (IH _ _ _ Hl) as (c1 & c2 & m1 & m2 & -> & -> & H1 & H2).
      exists (ca + c1), c2, (a' :: m1), m2. split; [lia|]. split; [reflexivity|]. split; [constructor; assumption|exact H2].
  Qed.
  Lemma lrel_length c l l' : lrel c l l' -> List.length l = List.length l'.
  Proof. induction 1; cbn; congruence. Qed.
  (** scalars do not occur, edge vectors only at the ends *)
  Definition ends_ok (l : list (atom S1)) : Prop :=
    2 <= List.length l -> Forall non_scalar l /\ Forall (fun a => a_cls a <> KEdgeVec) (tl (removelast l)).
  Definition step_to (c n : nat) (ll : list (contr S1)) (ll' : list (contr S2)) : Prop :=
    exists m m', ll = map Atom m /\ ll' = map Atom m' /\ lrel c m m' /\ ends_ok m /\ List.length m = n.
  Lemma last_two {A} (l : list A) : 2 <= List.length l -> exists r x y, l = r ++ [x; y].
  Proof.
    intros H. destruct (rev l) as [|y [|x r]] eqn:Er; apply (f_equal (@rev A)) in Er; rewrite rev_involutive in Er; subst l; cbn in H; try lia.
    exists (rev r), x, y. cbn [rev]. rewrite <- app_assoc. reflexivity.
  Qed.
  Lemma mul_last_rel c l l' : lrel c l l' -> ends_ok l -> 2 <= List.length l ->
    mrel (step_to c (List.length l - 1)) (mul_last S1 (map Atom l)) (mul_last S2 (map Atom l')).
  Proof.
    intros Hl Hok H2. destruct (Hok H2) as [Hns Hin]. destruct (last_two l H2) as (r & x & y & ->).
    destruct (lrel_app_inv _ _ _ _ Hl) as (c1 & c2 & m1 & m2 & -> & -> & H1 & Hxy).
    inversion Hxy as [|cx n ? x' ? ? Cx Hy]; subst. inversion Hy as [|cy n2 ? y' ? ? Cy Hn]; subst. inversion Hn; subst.
    unfold mul_last. rewrite !map_app. cbn [map]. rewrite !rev_app_distr. cbn [rev app].
    apply Forall_app in Hns as [Nr Nxy]. inversion Nxy as [|? ? Nx Ny']; subst. inversion Ny' as [|? ? Ny _]; subst.
    eapply mrel_bind; [apply (mul_rel cx cy); assumption|]. intros z z' Hz. unfold atomrel in Hz. destruct z as [z| |], z' as [z'| |]; try contradiction.
    destruct Hz as (Cz & N1 & N2). apply mrel_ret. exists (r ++ [z]), (m1 ++ [z']). rewrite !rev_involutive, !map_app. do 2 (split; [reflexivity|]).
    split; [|split].
    - apply lrel_app; [exact H1|]. replace (cx + (cy + 0)) with ((cx + cy) + 0) by lia. constructor; [exact Cz|constructor].
    - intros H3. destruct r as [|w r]; [cbn in H3; lia|]. cbn [app] in Hin.
      assert (Rl : forall u, removelast (w :: r ++ [u]) = w :: r) by (intros u; change (w :: r ++ [u]) with ((w :: r) ++ [u]); apply removelast_last).
      replace (w :: r ++ [x; y]) with ((w :: r ++ [x]) ++ [y]) in Hin by (cbn; rewrite <- app_assoc; reflexivity). rewrite removelast_last in Hin. cbn [tl] in Hin.
      apply Forall_app in Hin as [Hr Hx]. inversion Hx; subst. split.
      + apply Forall_app. split; [exact Nr|]. constructor; [|constructor]. intros Q. destruct (N2 Q); contradiction.
      + cbn [app]. rewrite Rl. exact Hr.
    - rewrite !app_length. cbn. lia.
  Qed.
  Lemma mul_first_rel c l l' : lrel c l l' -> ends_ok l -> 2 <= List.length l ->
    mrel (step_to c (List.length l - 1)) (mul_first S1 (map Atom l)) (mul_first S2 (map Atom l')).
  Proof.
    intros Hl Hok H2. destruct (Hok H2) as [Hns Hin]. destruct l as [|x [|y r]]; [cbn in H2; lia|cbn in H2; lia|].
    inversion Hl as [|cx n ? x' ? ? Cx Hy]; subst. inversion Hy as [|cy n2 ? y' ? r' Cy Hn]; subst.
    cbn [map mul_first]. inversion Hns as [|? ? Nx Ny']; subst. inversion Ny' as [|? ? Ny Nr]; subst.
    eapply mrel_bind; [apply (mul_rel cx cy); assumption|]. intros z z' Hz. unfold atomrel in Hz. destruct z as [z| |], z' as [z'| |]; try contradiction.
    destruct Hz as (Cz & N1 & N2). apply mrel_ret. exists (z :: r), (z' :: r'). do 2 (split; [reflexivity|]). split; [|split].
    - rewrite Nat.add_assoc. constructor; assumption.
    - intros H3. destruct r as [|w r]; [cbn in H3; lia|]. change (removelast (x :: y :: w :: r)) with (x :: y :: removelast (w :: r)) in Hin.
      cbn [tl] in Hin. inversion Hin as [|? ? Hy1 Hy2]; subst. split.
      + constructor; [|exact Nr]. intros Q. destruct (N2 Q); contradiction.
      + exact Hy2.
    - cbn. lia.
  Qed.
  Lemma reduce_loop_rel fuel : forall c l l', lrel c l l' -> ends_ok l ->
    mrel (atomrel (crel c)) (reduce_loop S1 fuel (map Atom l)) (reduce_loop S2 fuel (map Atom l')).
  Proof.
    induction fuel as [|fuel IH]; intros c l l' Hl Hok; pose proof Hl as Hl0; destruct Hl as [|c n a a' l l' Ha Hl].
    - apply mrel_raise.
    - destruct Hl as [|c2 n2 b b' l l' Hb Hl]; [apply mrel_ret; cbn; rewrite Nat.add_0_r; exact Ha|apply mrel_raise].
    - apply mrel_raise.
    - destruct Hl as [|c2 n2 b b' l l' Hb Hl]; [apply mrel_ret; cbn; rewrite Nat.add_0_r; exact Ha|].
      change (reduce_loop S1 (S fuel) (map Atom (a :: b :: l))) with
        (let! q := try_type (mul_last S1 (map Atom (a :: b :: l))) (mul_first S1 (map Atom (a :: b :: l))) in reduce_loop S1 fuel q).
      change (reduce_loop S2 (S fuel) (map Atom (a' :: b' :: l'))) with
        (let! q := try_type (mul_last S2 (map Atom (a' :: b' :: l'))) (mul_first S2 (map Atom (a' :: b' :: l'))) in reduce_loop S2 fuel q).
      eapply mrel_bind; [apply mrel_try; [apply mul_last_rel|apply mul_first_rel]; try exact Hl0; try exact Hok; cbn; lia|].
      intros q q' (m & m' & -> & -> & Hm & Om & _). apply IH; assumption.
  Qed.
  (** reduce(parallel_eval=...) of a list *)
  Lemma reduce_rel par c l l' : lrel c l l' -> ends_ok l ->
    mrel (atomrel (crel c)) (reduce S1 par (CList (map Atom l))) (reduce S2 par (CList (map Atom l'))).
  Proof.
    intros Hl Hok. cbn [reduce]. destruct par.
    - eapply (mrel_bind (fun q q' => exists m m', q = map Atom m /\ q' = map Atom m' /\ lrel c m m' /\ ends_ok m)).
      + assert (H : forall c l l', lrel c l l' -> mrel (fun q q' => exists m m', q = map Atom m /\ q' = map Atom m' /\ lrel c m m' /\
                    Forall2 (fun a b => a_cls b = a_cls a \/ a_cls b = KSingleMat) l m)
                 ((fix red (l : list (contr S1)) : M (list (contr S1)) := match l with [] => ret [] | x :: l' => let! y := reduce S1 false x in let! ys := red l' in ret (y :: ys) end) (map Atom l))
                 ((fix red (l : list (contr S2)) : M (list (contr S2)) := match l with [] => ret [] | x :: l' => let! y := reduce S2 false x in let! ys := red l' in ret (y :: ys) end) (map Atom l'))).
        { clear. intros c l l' H. induction H as [|c n a a' l l' Ha Hl IH]; cbn [map].
          - apply mrel_ret. exists [], []. repeat split; constructor.
          - eapply (mrel_bind (fun y y' => exists z z', y = Atom z /\ y' = Atom z' /\ crel c z z' /\ (a_cls z = a_cls a \/ a_cls z = KSingleMat))).
            + cbn [reduce]. assert (Cl : a_cls a = a_cls a') by (destruct Ha as (? & _ & Q); apply Q). rewrite <- Cl.
              destruct (a_cls a) eqn:Ec; try (apply mrel_ret; exists a, a'; auto).
              eapply mrel_bind; [apply region_reduce_rel; [exact Ec|exact Ha]|]. intros z z' [Cz Kz]. apply mrel_ret. exists z, z'. auto.
            + intros y y' (z & z' & -> & -> & Cz & Kz). eapply mrel_bind; [exact IH|]. intros q q' (m & m' & -> & -> & Hm & Fm).
              apply mrel_ret. exists (z :: m), (z' :: m'). split; [reflexivity|]. split; [reflexivity|]. split; constructor; assumption. }
        eapply mrel_impl; [|apply H; exact Hl]. intros q q' (m & m' & -> & -> & Hm & Fm). exists m, m'. do 2 (split; [reflexivity|]). split; [exact Hm|].
        assert (Lm : List.length l = List.length m) by (clear -Fm; induction Fm; cbn; congruence).
        intros H2. rewrite <- Lm in H2. destruct (Hok H2) as [Ns Ne].
        assert (P1 : forall (l m : list (atom S1)), Forall2 (fun a b => a_cls b = a_cls a \/ a_cls b = KSingleMat) l m -> Forall non_scalar l -> Forall non_scalar m).
        { clear. induction 1 as [|a b l m Hab Hlm IH]; intros F; inversion F; subst; constructor; [|auto]. unfold non_scalar in *. destruct Hab as [->| ->]; [assumption|discriminate]. }
        assert (P2 : forall (l m : list (atom S1)), Forall2 (fun a b => a_cls b = a_cls a \/ a_cls b = KSingleMat) l m -> Forall (fun a => a_cls a <> KEdgeVec) l -> Forall (fun a => a_cls a <> KEdgeVec) m).
        { clear. induction 1 as [|a b l m Hab Hlm IH]; intros F; inversion F; subst; constructor; [|auto]. destruct Hab as [->| ->]; [assumption|discriminate]. }
        assert (P3 : forall (l m : list (atom S1)), Forall2 (fun a b => a_cls b = a_cls a \/ a_cls b = KSingleMat) l m -> Forall2 (fun a b => a_cls b = a_cls a \/ a_cls b = KSingleMat) (removelast l) (removelast m)).
        { clear. induction 1 as [|a b l m Hab Hlm IH]; [constructor|]. destruct Hlm; [constructor|]. change (removelast (a :: x :: l)) with (a :: removelast (x :: l)). change (removelast (b :: y :: l')) with (b :: removelast (y :: l')). constructor; assumption. }
        split; [eapply P1; eassumption|]. eapply P2; [|exact Ne]. apply P3 in Fm. destruct Fm; [constructor|assumption].
      + intros q q' (m & m' & -> & -> & Hm & Om). rewrite !map_length, (lrel_length _ _ _ Hm). apply reduce_loop_rel; assumption.
    - assert (Hb : forall (S : sops) (l : list (contr S)), (let! q := ret l in reduce_loop S (List.length q) q) = reduce_loop S (List.length l) l) by reflexivity.
      rewrite !Hb, !map_length, (lrel_length _ _ _ Hl). apply reduce_loop_rel; assumption.
  Qed.
End ParamRed.
