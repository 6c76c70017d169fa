(** * AdEqual: norms are kept by the sweeps; equalizing the norms does not change the product *)
From Coq Require Import Reals Lra Permutation.
From Verif Require Import Base Scalars Tensor Spec LinAlg Utils2Proofs Contractables ContrProofs Utils UtilsSpec UtilsProofs SvdProofs SvdFinal P_Svd TorchMps TmSpec TmProofs TmFinal Adaptive AdMerge AdSweep AdKinds AdSplit AdSpec AdUnmerge.

Definition rprod (l : list R) : R := fold_right Rmult 1%R l.
Lemma rprod_app a b : rprod (a ++ b) = (rprod a * rprod b)%R.
Proof. unfold rprod. induction a as [|x a IH]; cbn [app fold_right]; [ring|]. rewrite IH. ring. Qed.
Lemma norm_ext (t u : tensor R_cring) : shp t = shp u -> (forall i, valid (shp t) i -> get t i = get u i) -> norm t = norm u.
Proof.
  intros Hs Hg. unfold norm. f_equal. rewrite <- Hs. f_equal. apply map_ext_in. intros i Hi. apply all_idx_spec in Hi. rewrite Hg by exact Hi. reflexivity.
Qed.
Lemma norm_scale (t : tensor R_cring) (c : R) : (0 <= c)%R -> norm (mkT (shp t) (fun i => (get t i * c)%R) : tensor R_cring) = (c * norm t)%R.
Proof.
  intros Hc. unfold norm. cbn [shp get]. transitivity (sqrt (Rsqr c) * sqrt (fold_right Rplus 0 (map (fun i => get t i * get t i) (all_idx (shp t)))))%R; [|rewrite (sqrt_Rsqr c Hc); reflexivity].
  rewrite <- sqrt_mult_alt by apply Rle_0_sqr. f_equal.
  generalize (all_idx (shp t)) as l. induction l as [|x l IH]; cbn [map fold_right]; [unfold Rsqr; ring|]. rewrite IH. unfold Rsqr. ring.
Qed.

Section E.
  Notation K := R_cring.
  Notation T := (tensor R_cring).
  Notation mod_ := (module R_cring).
  Variables D F O : nat.
  Notation wf := (wf K D F O).
  Notation mequiv := (mequiv K D F O).
  Notation kinds := (kinds K).
  Notation kind_of := (kind_of K).
  Lemma map_seq_split {A} (f : nat -> A) a b : map f (seq 0 (a + b)) = map f (seq 0 a) ++ map (fun s => f (a + s)) (seq 0 b).
  Proof. rewrite seq_app, map_app. f_equal. cbn [Nat.add]. rewrite (map_seq_shift f a b). reflexivity. Qed.
  Lemma join_norm (l r : T) a b c : shp l = [a; D; D; F] -> shp r = [b; D; D; F] -> join_regions K l r = Ok (Some c) ->
    get_norm c = map (fun s => norm (sel0 l s)) (seq 0 a) ++ map (fun s => norm (sel0 r s)) (seq 0 b).
  Proof.
    intros Hl Hr. unfold join_regions, size. rewrite Hl, Hr. cbn [tl nth list_eqb]. rewrite !Nat.eqb_refl. cbn [andb assert_ rbind].
    set (v := mkT _ _). assert (Hv : shp v = [a + b; D; D; F]) by reflexivity.
    destruct (input_region_any K D F v true _ Hv) as (bias & E & _). rewrite E. cbn [rbind]. intros X; injection X as <-.
    cbn [get_norm]. unfold size. rewrite Hv. cbn [nth]. rewrite map_seq_split. f_equal; apply map_ext_in; intros s Hs; apply in_seq in Hs.
    - apply norm_ext; unfold sel0, v; cbn [shp tl get hd]; [rewrite Hl; reflexivity|]. intros i _. destruct (Nat.ltb_spec s a); [reflexivity|lia].
    - apply norm_ext; unfold sel0, v; cbn [shp tl get hd]; [rewrite Hr; reflexivity|]. intros i _. destruct (Nat.ltb_spec (a + s) a); [lia|].
      replace (a + s - a) with s by lia. reflexivity.
  Qed.
  Lemma norm_unsq (t : T) : norm (sel0 (unsq_front 1 t) 0) = norm t.
  Proof. apply norm_ext; [reflexivity|]. intros; reflexivity. Qed.
  Lemma combine_norm a b c : wf a -> wf b -> combine_cores K false a b = Ok (Some c) -> get_norm c = get_norm a ++ get_norm b.
  Proof.
    intros Wa Wb E. destruct a as [t ub bi|t|t|t|t lo], b as [u ub' bi'|u|u|u|u lo']; cbn [combine_cores] in E; try discriminate E.
    - destruct Wa as (n & _ & Ht & _). cbn [AdMerge.wf wf_mod] in Wb.
      rewrite (join_norm t (unsq_front 1 u) n 1 c Ht) in *; [|unfold unsq_front; cbn [shp repeat app]; rewrite Wb; reflexivity|exact E].
      cbn [seq map get_norm]. unfold size. rewrite Ht. cbn [nth]. rewrite norm_unsq. reflexivity.
    - destruct Wb as (n & _ & Hu & _). cbn [AdMerge.wf wf_mod] in Wa.
      rewrite (join_norm (unsq_front 1 t) u 1 n c) in *; [|unfold unsq_front; cbn [shp repeat app]; rewrite Wa; reflexivity|exact Hu|exact E].
      cbn [seq map get_norm]. unfold size. rewrite Hu. cbn [nth]. rewrite norm_unsq. reflexivity.
  Qed.
  Lemma sweep_norm : forall n s l l', List.length l <= n -> Forall wf l -> sweep' K None s l = Ok l' -> flat_map get_norm l' = flat_map get_norm l.
  Proof.
    induction n as [|n IH]; intros s l l' Hn W E.
    - destruct l; [|cbn in Hn; lia]. injection E as <-. reflexivity.
    - destruct l as [|a [|b rest]]; [injection E as <-; reflexivity|injection E as <-; reflexivity|].
      rewrite sweep'_step in E. inversion W as [|? ? Wa W']; subst. inversion W' as [|? ? Wb Wr]; subst. cbn [List.length] in Hn.
      destruct (combine_ok K D F O false a b Wa Wb) as [(Ec & _)|(c & Ec & _ & Q)]; rewrite Ec in E; cbn [rbind] in E.
      + destruct (sweep' K None (s + mod_core_len a) (b :: rest)) as [r|e] eqn:Er; [|discriminate E]. injection E as <-.
        assert (Hn' : List.length (b :: rest) <= n) by (cbn [List.length]; lia). cbn [flat_map]. f_equal. rewrite (IH _ _ _ Hn' W' Er). reflexivity.
      + destruct (sweep' K None (s + mod_core_len c) rest) as [r|e] eqn:Er; [|discriminate E]. injection E as <-.
        assert (Hn' : List.length rest <= n) by lia. cbn [flat_map]. rewrite (IH _ _ _ Hn' Wr Er), (combine_norm a b c Wa Wb Ec), app_assoc. reflexivity.
  Qed.
  Lemma sweeps_norm : forall fuel l, Forall wf l -> 2 <= List.length (ksweeps fuel None (kinds l)) -> List.length l < fuel ->
    forall l', sweeps K fuel None l = Ok l' -> flat_map get_norm l' = flat_map get_norm l.
  Proof.
    induction fuel as [|fuel IH]; intros l W H2 Hf l' E; [lia|]. cbn [ksweeps sweeps] in *.
    destruct l as [|a [|b rest]].
    - cbn in H2. lia.
    - cbn in H2. destruct fuel; cbn in H2; lia.
    - destruct (sweep_ok K D F O None Logic.I _ 0 (a :: b :: rest) (le_n _) W) as (l1 & E1 & Kl & Q & Hl & Hs).
      pose proof (sweep_norm _ 0 _ _ (le_n _) W E1) as N1.
      change (sweep' K None 0 (a :: b :: rest)) with (sweep K None 0 (a :: b :: rest)) in E1.
      change (ksweep' (km None) (Nat.odd 0) (kinds (a :: b :: rest))) with (ksweep None false (kinds (a :: b :: rest))) in Kl.
      rewrite E1 in E. cbn [rbind] in E. rewrite <- Kl in *. rewrite !kinds_length in *.
      destruct (Nat.eqb_spec (List.length l1) (List.length (a :: b :: rest))) as [El|El]; [injection E as <-; reflexivity|].
      rewrite <- N1. apply (IH l1); [apply Q|exact H2|lia|exact E].
  Qed.

  (** *** scaling *)
  Definition scaled (c : R) (l l' : list mod_) : Prop :=
    Forall wf l' /\ kinds l' = kinds l /\ region_len K l = region_len K l' /\
    forall ind px o i j, i < D -> j < D -> chain (csem_all K F l' ind px o) i j = (c * chain (csem_all K F l ind px o) i j)%R.
  Lemma scaled_mequiv l l' : Forall wf l -> scaled 1 l l' -> mequiv l l'.
  Proof.
    intros W (W' & Hk & Hl & Hc). split; [exact W|]. split; [exact W'|]. split; [exact Hl|].
    split; [rewrite !(kinds_core_len K); change (AdMerge.kinds K) with kinds; rewrite Hk; reflexivity|]. intros ind px o Ho.
    split; [apply (sq_csem_all K D F O); exact W|]. split; [apply (sq_csem_all K D F O); exact W'|]. intros i j Hi Hj. rewrite Hc by assumption. symmetry. apply Rmult_1_l.
  Qed.
  Lemma scaled_cons c c' m m' l l' : wf m -> scaled c [m] [m'] -> scaled c' l l' -> scaled (c * c') (m :: l) (m' :: l').
  Proof.
    intros Wm (A1 & A2 & A3 & A4) (B1 & B2 & B3 & B4).
    split; [apply (proj2 (Forall_app _ [m'] l')); auto|]. split; [unfold AdMerge.kinds in *; cbn [map] in *; congruence|].
    assert (El : mod_len m = mod_len m') by (unfold region_len in A3; cbn [fold_right] in A3; lia).
    split; [unfold region_len in *; cbn [fold_right]; lia|].
    intros ind px o i j Hi Hj. cbn [csem_all] in *.
    assert (A4' : forall i j, i < D -> j < D -> chain (csem K F m' (fun s => px (ind + s)%nat) o) i j = (c * chain (csem K F m (fun s => px (ind + s)%nat) o) i j)%R).
    { intros i' j' Hi' Hj'. specialize (A4 ind px o i' j' Hi' Hj'). rewrite !app_nil_r in A4. exact A4. }
    rewrite !(chain_sq K D) by (first [assumption|apply (sq_csem K D F O); first [exact Wm|exact (Forall_inv A1)]]).
    unfold mmul. transitivity (bsum (S := R_ops) D (fun k => (c * c' * (chain (csem K F m (fun s => px (ind + s)%nat) o) i k * chain (csem_all K F l (ind + mod_len m)%nat px o) k j))%R)).
    - apply (bsum_ext (S := R_ops)). intros k Hk. rewrite A4' by assumption. rewrite <- El, B4 by assumption. rring.
    - apply (bsum_mul_l R_cring).
  Qed.
  Lemma chain_rcl_scale n (C C' : nat -> mat K) (sc : list R) : List.length sc = n ->
    (forall s l r, s < n -> l < D -> r < D -> C' s l r = (nth s sc 1 * C s l r)%R) ->
    forall i j, i < D -> chain (rcl K D C' 0 n) i j = (rprod sc * chain (rcl K D C 0 n) i j)%R.
  Proof.
    intros Hl Hc i j Hi.
    assert (G : forall sc a, (forall s l r, s < List.length sc -> l < D -> r < D -> C' (a + s)%nat l r = (nth s sc 1 * C (a + s)%nat l r)%R) ->
       forall i, i < D -> chain (rcl K D C' a (List.length sc)) i j = (rprod sc * chain (rcl K D C a (List.length sc)) i j)%R).
    { clear. induction sc as [|x sc IH]; intros a H i Hi; [symmetry; apply Rmult_1_l|].
      unfold rcl in *. cbn [List.length seq map chain rprod fold_right]. unfold mmul.
      transitivity (bsum (S := R_ops) D (fun k => (x * rprod sc * (C a i k * chain (map (fun p => (D, C p)) (seq (S a) (List.length sc))) k j))%R)).
      - apply (bsum_ext (S := R_ops)). intros k Hk. rewrite (IH (S a)); [|intros s l r Hs Hl Hr; replace (S a + s) with (a + S s) by lia; apply (H (S s)); [cbn [List.length]; lia|assumption|assumption]|exact Hk].
        pose proof (H 0 i k ltac:(cbn [List.length]; lia) Hi Hk) as H0. rewrite Nat.add_0_r in H0. cbn [nth] in H0. rewrite H0. rring.
      - apply (bsum_mul_l R_cring). }
    subst n. apply (G sc 0); assumption.
  Qed.
  Lemma scale_site (A A' : nat -> nat -> nat -> R) (v : vec K) c l r : (forall i, A' l r i = (A l r i * c)%R) ->
    site_matrix (K := K) F A' no_bias v l r = (c * site_matrix (K := K) F A no_bias v l r)%R.
  Proof.
    intros H. unfold site_matrix, no_bias.
    transitivity (bsum (S := R_ops) F (fun i => (c * (v i * A l r i))%R)).
    - transitivity (bsum (S := R_ops) F (fun i => (v i * A' l r i)%R)); [rring|]. apply (bsum_ext (S := R_ops)). intros i Hi. rewrite H. rring.
    - rewrite (bsum_mul_l R_cring). rring.
  Qed.
  Lemma map_nth_seq (sc : list R) : map (fun s => nth s sc 1%R) (seq 0 (List.length sc)) = sc.
  Proof.
    induction sc as [|x sc IH]; [reflexivity|]. cbn [List.length seq map nth]. f_equal. rewrite <- seq_shift, map_map. exact IH.
  Qed.
  Lemma combine_map_seq {A} (g : nat -> A) (sc : list R) (f : R -> A -> R) : 
    map (fun s => f (nth s sc 1%R) (g s)) (seq 0 (List.length sc)) = map (fun q => f (fst q) (snd q)) (combine sc (map g (seq 0 (List.length sc)))).
  Proof.
    revert g. induction sc as [|x sc IH]; intros g; [reflexivity|]. cbn [List.length seq map nth combine]. f_equal. rewrite <- seq_shift, !map_map. cbn [nth fst snd]. apply (IH (fun s => g (S s))).
  Qed.
  (** the cores that _unmerge rescales *)
  Definition unmerged_mod (m : mod_) : Prop := match m with InputRegion _ _ _ | InputSite _ | OutputSite _ => True | _ => False end.
  Lemma rescale_ok m sc : wf m -> unmerged_mod m -> List.length sc = List.length (get_norm m) ->
    exists m', rescale_norm m sc = Ok m' /\ scaled (rprod sc) [m] [m'] /\
      (Forall (fun x => (0 <= x)%R) sc -> get_norm m' = map (fun q => (fst q * snd q)%R) (combine sc (get_norm m))).
  Proof.
    intros W U Hl. destruct m as [t ub b|t|t|t|t lo]; try destruct U; cbn [get_norm] in Hl.
    - destruct W as (n & Hn & Ht & Hb). rewrite map_length, seq_length in Hl. unfold size in Hl. rewrite Ht in Hl. cbn [nth] in Hl.
      cbn [rescale_norm]. unfold size. rewrite Ht, Hl. cbn [nth]. rewrite Nat.eqb_refl. cbn [assert_ rbind set_tensor].
      eexists. split; [reflexivity|]. split; [split; [|split; [|split]]|].
      + repeat constructor. exists n. split; [exact Hn|]. split; [reflexivity|exact Hb].
      + cbn [AdMerge.kinds map AdMerge.kind_of]. unfold size. rewrite Ht. reflexivity.
      + unfold region_len. cbn [fold_right mod_len]. unfold size. rewrite Ht. reflexivity.
      + intros ind px o i j Hi Hj. cbn [csem_all csem]. rewrite !app_nil_r. unfold size. rewrite Ht. cbn [nth shp].
        apply chain_rcl_scale; [exact Hl| |exact Hi]. intros s l r Hs Hl' Hr. apply scale_site. intros i0. reflexivity.
      + intros Hp. cbn [get_norm]. unfold size. cbn [shp nth]. rewrite Ht. cbn [nth]. rewrite <- Hl.
        rewrite <- (combine_map_seq (fun s => norm (sel0 t s)) sc Rmult). apply map_ext_in. intros s Hs. apply in_seq in Hs.
        rewrite <- norm_scale.
        * apply norm_ext; [unfold sel0; cbn [shp tl]; rewrite Ht; reflexivity|]. intros i _. reflexivity.
        * rewrite Forall_forall in Hp. apply Hp, nth_In. lia.
    - destruct sc as [|x [|y sc]]; try discriminate Hl. cbn [rescale_norm set_tensor]. eexists. split; [reflexivity|]. split; [split; [|split; [|split]]|].
      + repeat constructor. exact W.
      + reflexivity.
      + reflexivity.
      + intros ind px o i j Hi Hj. cbn [csem_all csem sem]. rewrite !app_nil_r. unfold size. cbn [shp]. cbn [AdMerge.wf wf_mod] in W. rewrite W. cbn [nth rprod fold_right].
        rewrite !chain_single by exact Hj. cbn [get]. rring.
      + intros Hp. cbn [get_norm combine map fst snd]. rewrite norm_scale by (inversion Hp; assumption). reflexivity.
    - destruct sc as [|x [|y sc]]; try discriminate Hl. cbn [rescale_norm set_tensor]. eexists. split; [reflexivity|]. split; [split; [|split; [|split]]|].
      + repeat constructor. exact W.
      + reflexivity.
      + reflexivity.
      + intros ind px o i j Hi Hj. cbn [csem_all csem sem]. rewrite !app_nil_r. unfold size. cbn [shp]. cbn [AdMerge.wf wf_mod] in W. rewrite W. cbn [nth rprod fold_right].
        rewrite !chain_single by exact Hj. rewrite Rmult_1_r. apply scale_site. intros i0. reflexivity.
      + intros Hp. cbn [get_norm combine map fst snd]. rewrite norm_scale by (inversion Hp; assumption). reflexivity.
  Qed.
  (** the mean of the logarithms *)
  Definition log_mean (norms : list R) : R := (fold_right Rplus 0 (map ln norms) / INR (List.length norms))%R.
  Definition scales_of (ls : R) (norms : list R) : list R := map (fun n => exp (ls - ln n)) norms.
  Lemma rprod_scales ls norms : rprod (scales_of ls norms) = exp (INR (List.length norms) * ls - fold_right Rplus 0 (map ln norms))%R.
  Proof.
    unfold rprod, scales_of. induction norms as [|x l IH]; [cbn; symmetry; replace (0 * ls - 0)%R with 0%R by ring; apply exp_0|].
    cbn [map fold_right]. rewrite IH, <- exp_plus. f_equal. cbn [List.length]. rewrite S_INR. ring.
  Qed.
  Lemma scales_unit norms : norms <> [] -> rprod (scales_of (log_mean norms) norms) = 1%R.
  Proof.
    intros Hn. rewrite rprod_scales, <- exp_0. f_equal. unfold log_mean. field. apply not_0_INR. destruct norms; [contradiction|discriminate].
  Qed.
  Lemma scaled_norms ls norms : Forall (fun x => (0 < x)%R) norms -> map (fun q => (fst q * snd q)%R) (combine (scales_of ls norms) norms) = repeat (exp ls) (List.length norms).
  Proof.
    induction 1 as [|x l Hx H IH]; [reflexivity|]. cbn [scales_of map combine List.length repeat fst snd]. f_equal; [|exact IH].
    rewrite <- (exp_ln x Hx) at 2. rewrite <- exp_plus. f_equal. ring.
  Qed.
  Lemma rescale_all ls c : Forall wf c -> Forall unmerged_mod c -> Forall nz c ->
    exists e, rmap (fun m => rescale_norm m (scales_of ls (get_norm m))) c = Ok e /\ scaled (rprod (scales_of ls (flat_map get_norm c))) c e /\
      flat_map get_norm e = repeat (exp ls) (List.length (flat_map get_norm c)).
  Proof.
    intros W U N. induction c as [|m c IH].
    - exists []. split; [reflexivity|]. split; [split; [constructor|]; split; [reflexivity|]; split; [reflexivity|]; intros; symmetry; apply Rmult_1_l|reflexivity].
    - inversion W as [|? ? Wm Wc]; subst. inversion U as [|? ? Um Uc]; subst. inversion N as [|? ? Nm Nc]; subst.
      destruct (IH Wc Uc Nc) as (e & Ee & Se & Ne).
      destruct (rescale_ok m (scales_of ls (get_norm m)) Wm Um) as (m' & Em & Sm & Nm'); [unfold scales_of; apply map_length|].
      cbn [rmap]. rewrite Em. cbn [rbind]. rewrite Ee. cbn [rbind]. exists (m' :: e). split; [reflexivity|]. split.
      + cbn [flat_map]. unfold scales_of in *. rewrite map_app, rprod_app. apply scaled_cons; assumption.
      + cbn [flat_map]. rewrite Ne, Nm', scaled_norms, app_length, repeat_app; [reflexivity|exact Nm|].
        apply Forall_forall. intros x Hx. unfold scales_of in Hx. apply in_map_iff in Hx as (y & <- & _). left. apply exp_pos.
  Qed.
  Lemma equalize_ok c : Forall wf c -> Forall unmerged_mod c -> Forall nz c -> flat_map get_norm c <> [] ->
    exists e, equalize c = Ok e /\ kinds e = kinds c /\ mequiv c e /\ flat_map get_norm e = repeat (exp (log_mean (flat_map get_norm c))) (List.length (flat_map get_norm c)).
  Proof.
    intros W U N Hne. unfold equalize. destruct (Nat.eqb_spec (List.length (flat_map get_norm c)) 0) as [E|_]; [apply length_zero_iff_nil in E; contradiction|].
    assert (Hex : existsb (fun x => if Req_EM_T x 0 then true else false) (flat_map get_norm c) = false).
    { destruct (existsb _ _) eqn:E; [|reflexivity]. apply existsb_exists in E as (x & Hx & E). apply in_flat_map in Hx as (m & Hm & Hx).
      rewrite Forall_forall in N. specialize (N m Hm). unfold nz in N. rewrite Forall_forall in N. specialize (N x Hx). destruct (Req_EM_T x 0); [subst; exfalso; lra|discriminate]. }
    rewrite Hex. destruct (rescale_all (log_mean (flat_map get_norm c)) c W U N) as (e & Ee & Se & Ne).
    exists e. split; [exact Ee|]. split; [apply Se|]. rewrite scales_unit in Se by exact Hne. split; [apply scaled_mequiv; assumption|exact Ne].
  Qed.
End E.
