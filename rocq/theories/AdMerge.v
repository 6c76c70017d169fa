(** * AdMerge: merging cores does not change the ordered matrix product *)
From Verif Require Import Base Scalars Tensor Spec LinAlg EinsumProofs Contractables ContrSpec ContrProofs ContrReduce Utils TorchMps TmSpec TmProofs TmFinal Adaptive.

(** the kind of a module, with the number of merged or unmerged cores *)
Inductive kind := KI | KO | KM (n : nat) | KMO (left_output : bool) | KR (n : nat).

Section P.
  Variable K : cring.
  Add Ring Kr : (rth K).
  Notation T := (tensor K).
  Notation mod_ := (module K).
  Implicit Types t u x : T.

  (** *** the einsum calls *)
  Lemma e_pair t u n D D' D'' F F' : shp t = [n; D; D'; F] -> shp u = [n; D'; D''; F'] ->
    exists v, einsum "slui,surj->slrij" [t; u] = Ok v /\ shp v = [n; D; D''; F; F'] /\
      forall s l r i j, s < n -> l < D -> r < D'' -> i < F -> j < F' -> get v [s; l; r; i; j] = bsum D' (fun k => smul (get t [s; l; k; i]) (get u [s; k; r; j])).
  Proof. intros Ht Hu. eins_open. eexists. split; [reflexivity|]. split; [reflexivity|]. intros. eins_get. eins_sum. Qed.
  Lemma e_in_out t u O D D' D'' F : shp t = [D; D'; F] -> shp u = [O; D'; D''] ->
    exists v, einsum "lui,our->olri" [t; u] = Ok v /\ shp v = [O; D; D''; F] /\
      forall o l r i, o < O -> l < D -> r < D'' -> i < F -> get v [o; l; r; i] = bsum D' (fun k => smul (get t [l; k; i]) (get u [o; k; r])).
  Proof. intros Ht Hu. eins_open. eexists. split; [reflexivity|]. split; [reflexivity|]. intros. eins_get. eins_sum. Qed.
  Lemma e_out_in t u O D D' D'' F : shp t = [O; D; D'] -> shp u = [D'; D''; F] ->
    exists v, einsum "olu,uri->olri" [t; u] = Ok v /\ shp v = [O; D; D''; F] /\
      forall o l r i, o < O -> l < D -> r < D'' -> i < F -> get v [o; l; r; i] = bsum D' (fun k => smul (get t [o; l; k]) (get u [k; r; i])).
  Proof. intros Ht Hu. eins_open. eexists. split; [reflexivity|]. split; [reflexivity|]. intros. eins_get. eins_sum. Qed.

  Variables D F O : nat.
  (** *** equality of ordered products of D x D matrices *)
  Notation fac_ := (list (nat * mat K)).
  Definition sq : fac_ -> Prop := Forall (fun p => fst p = D).
  Definition eqc (a b : fac_) : Prop := sq a /\ sq b /\ forall i j, i < D -> j < D -> chain a i j = chain b i j.
  Lemma eqc_refl a : sq a -> eqc a a. Proof. intros H. repeat split; auto. Qed.
  Lemma eqc_sym a b : eqc a b -> eqc b a. Proof. intros (A & B & C). split; [exact B|]. split; [exact A|]. intros. symmetry. auto. Qed.
  Lemma eqc_trans a b c : eqc a b -> eqc b c -> eqc a c.
  Proof. intros (A & B & C) (A' & B' & C'). split; [exact A|]. split; [exact B'|]. intros. rewrite C by assumption. auto. Qed.
  Lemma chain_sq a b i j : sq a -> i < D -> chain (a ++ b) i j = mmul D (chain a) (chain b) i j.
  Proof. intros H Hi. rewrite (chain_app K D) by exact Hi. rewrite (cols_all K D a H). reflexivity. Qed.
  Lemma eqc_app a a' b b' : eqc a a' -> eqc b b' -> eqc (a ++ b) (a' ++ b').
  Proof.
    intros (A & A' & C) (B & B' & C'). split; [apply Forall_app; auto|]. split; [apply Forall_app; auto|].
    intros i j Hi Hj. rewrite !chain_sq by assumption. apply mmul_ext; intros k Hk; auto.
  Qed.
  Lemma sq_rcl C a n : sq (rcl K D C a n).
  Proof. apply Forall_forall. intros p Hp. unfold rcl in Hp. apply in_map_iff in Hp as (s & <- & _). reflexivity. Qed.
  Lemma eqc_one M M' : (forall i j, i < D -> j < D -> M i j = M' i j) -> eqc [(D, M)] [(D, M')].
  Proof. intros H. split; [repeat constructor|]. split; [repeat constructor|]. intros i j Hi Hj. rewrite !chain_single by exact Hj. auto. Qed.
  Lemma eqc_two M M1 M2 : (forall i j, i < D -> j < D -> M i j = mmul D M1 M2 i j) -> eqc [(D, M1); (D, M2)] [(D, M)].
  Proof.
    intros H. split; [repeat constructor|]. split; [repeat constructor|]. intros i j Hi Hj.
    rewrite (chain_absorb K), !chain_single by exact Hj. symmetry. auto.
  Qed.

  (** *** the factors of an unmerged module, without bias *)
  Definition site_fac t (v : vec K) : mat K := site_matrix F (fun l r i => get t [l; r; i]) no_bias v.
  Definition csem (m : mod_) (px : nat -> vec K) (o : nat) : fac_ :=
    match m with
    | InputRegion t _ _ => rcl K (size 1 t) (fun s => site_matrix F (fun l r i => get t [s; l; r; i]) no_bias (px s)) 0 (size 0 t)
    | _ => sem K F m px o
    end.
  Fixpoint csem_all (mods : list mod_) (ind : nat) (px : nat -> vec K) (o : nat) : fac_ :=
    match mods with
    | [] => []
    | m :: mods' => csem m (fun s => px (ind + s)) o ++ csem_all mods' (ind + mod_len m) px o
    end.
  Definition wf := wf_mod K D F O.
  Lemma sq_csem m px o : wf m -> sq (csem m px o).
  Proof.
    intros W. destruct m as [t ub b|t|t|t|t lo]; try (apply (sem_cols K F _ px o D O W)).
    cbn [csem]. destruct W as (n & _ & Ht & _). unfold size at 1. rewrite Ht. apply sq_rcl.
  Qed.
  Lemma sq_csem_all l ind px o : Forall wf l -> sq (csem_all l ind px o).
  Proof.
    intros W. revert ind. induction W as [|m l Hm W IH]; intros ind; cbn [csem_all]; [constructor|].
    apply Forall_app. split; [apply sq_csem; exact Hm|apply IH].
  Qed.
  Lemma csem_all_app l l' ind px o : csem_all (l ++ l') ind px o = csem_all l ind px o ++ csem_all l' (ind + region_len K l) px o.
  Proof.
    revert ind. induction l as [|m l IH]; intros ind; cbn [app csem_all region_len fold_right]; [rewrite Nat.add_0_r; reflexivity|].
    rewrite IH, <- app_assoc. unfold region_len. rewrite Nat.add_assoc. reflexivity.
  Qed.
  Definition no_region (m : mod_) : Prop := match m with InputRegion _ _ _ => False | _ => True end.
  Lemma csem_sem l ind px o : Forall no_region l -> csem_all l ind px o = sem_all K F l ind px o.
  Proof.
    intros H. revert ind. induction H as [|m l Hm H IH]; intros ind; [reflexivity|]. cbn [csem_all sem_all]. rewrite IH.
    destruct m; try reflexivity. destruct Hm.
  Qed.
  (** two lists of modules with the same inputs, the same number of cores and the same product *)
  Definition mequiv (l l' : list mod_) : Prop :=
    Forall wf l /\ Forall wf l' /\ region_len K l = region_len K l' /\ region_core_len K l = region_core_len K l' /\
    forall ind px o, o < O -> eqc (csem_all l ind px o) (csem_all l' ind px o).
  Lemma mequiv_refl l : Forall wf l -> mequiv l l.
  Proof. intros W. split; [exact W|]. split; [exact W|]. split; [reflexivity|]. split; [reflexivity|]. intros. apply eqc_refl, sq_csem_all, W. Qed.
  Lemma mequiv_trans a b c : mequiv a b -> mequiv b c -> mequiv a c.
  Proof.
    intros (A1 & A2 & A3 & A4 & A5) (B1 & B2 & B3 & B4 & B5). split; [exact A1|]. split; [exact B2|]. split; [congruence|]. split; [congruence|].
    intros ind px o Ho. eapply eqc_trans; [apply A5|apply B5]; exact Ho.
  Qed.
  Lemma mequiv_sym a b : mequiv a b -> mequiv b a.
  Proof. intros (A1 & A2 & A3 & A4 & A5). split; [exact A2|]. split; [exact A1|]. split; [congruence|]. split; [congruence|]. intros. apply eqc_sym, A5. assumption. Qed.
  Lemma core_len_app l l' : region_core_len K (l ++ l') = region_core_len K l + region_core_len K l'.
  Proof. induction l as [|m l IH]; cbn [app region_core_len fold_right]; [reflexivity|]. unfold region_core_len in IH. rewrite IH. unfold region_core_len. lia. Qed.
  Lemma mequiv_app a a' b b' : mequiv a a' -> mequiv b b' -> mequiv (a ++ b) (a' ++ b').
  Proof.
    intros (A1 & A2 & A3 & A4 & A5) (B1 & B2 & B3 & B4 & B5). split; [apply Forall_app; auto|]. split; [apply Forall_app; auto|].
    split; [rewrite !(region_len_app K); congruence|]. split; [rewrite !core_len_app; congruence|].
    intros ind px o Ho. rewrite !csem_all_app, A3. apply eqc_app; [apply A5|apply B5]; exact Ho.
  Qed.

  Definition kind_of (m : mod_) : kind :=
    match m with
    | InputRegion t _ _ => KR (size 0 t) | OutputSite _ => KO | InputSite _ => KI
    | MergedInput t => KM (size 0 t) | MergedOutput _ lo => KMO lo
    end.
  Definition kinds := map kind_of.
  Definition klen1 (k : kind) : nat := match k with KI | KO => 1 | KM n => 2 * n | KMO _ => 2 | KR n => n end.
  Definition klen (l : list kind) : nat := fold_right (fun k n => klen1 k + n) 0 l.
  Lemma kind_core_len m : mod_core_len m = klen1 (kind_of m).
  Proof. destruct m; reflexivity. Qed.
  Lemma kinds_core_len l : region_core_len K l = klen (kinds l).
  Proof. induction l as [|m l IH]; [reflexivity|]. cbn [region_core_len fold_right kinds map klen]. rewrite kind_core_len. unfold region_core_len in IH. rewrite IH. reflexivity. Qed.

  (** *** InputRegion._merge *)
  Lemma merge_even_ok t h : shp t = [2 * h; D; D; F] -> 0 < h ->
    exists m, merge_even K t = Ok (Some (MergedInput m)) /\ shp m = [h; D; D; F; F] /\
      forall s l r i j, s < h -> l < D -> r < D -> i < F -> j < F ->
        get m [s; l; r; i; j] = bsum D (fun k => smul (get t [2 * s; l; k; i]) (get t [2 * s + 1; k; r; j])).
  Proof.
    intros Ht Hh. unfold merge_even, size. rewrite Ht. cbn [nth]. destruct (Nat.eqb_spec (2 * h) 0) as [|_]; [lia|].
    replace (2 * h / 2) with h by (rewrite Nat.mul_comm, Nat.div_mul; lia).
    destruct (e_pair (step2 0 h t) (step2 1 h t) h D D D F F) as (m & Em & Hm & Gm); [unfold step2; cbn [shp]; rewrite Ht; reflexivity..|].
    rewrite Em. cbn [rbind]. unfold merged_input, ndim, size. rewrite Hm. cbn [List.length Nat.eqb assert_ rbind nth]. rewrite !Nat.eqb_refl. cbn [assert_ rbind].
    exists m. split; [reflexivity|]. split; [exact Hm|]. intros s l r i j Hs Hl Hr Hi Hj. rewrite Gm by assumption.
    apply bsum_ext. intros k Hk. unfold step2. cbn [get hd tl]. rewrite Nat.add_0_r. reflexivity.
  Qed.
  Lemma merged_pair_value (tl_ tr : nat -> nat -> nat -> K) (v v' : vec K) (m : nat -> nat -> nat -> nat -> K) l r :
    (forall i j, i < F -> j < F -> m l r i j = bsum D (fun k => smul (tl_ l k i) (tr k r j))) ->
    bsum F (fun i => bsum F (fun j => smul (m l r i j) (smul (v i) (v' j))))
    = mmul D (site_matrix F tl_ no_bias v) (site_matrix F tr no_bias v') l r.
  Proof.
    intros H. unfold mmul, site_matrix, no_bias.
    transitivity (bsum F (fun i => bsum F (fun j => bsum D (fun k => smul (smul (v i) (tl_ l k i)) (smul (v' j) (tr k r j)))))).
    { apply bsum_ext; intros i Hi. apply bsum_ext; intros j Hj. rewrite H by assumption. rewrite <- bsum_mul_r. apply bsum_ext; intros; ring. }
    transitivity (bsum F (fun i => bsum D (fun k => bsum F (fun j => smul (smul (v i) (tl_ l k i)) (smul (v' j) (tr k r j)))))).
    { apply bsum_ext; intros i Hi. apply bsum_swap. }
    rewrite bsum_swap. apply bsum_ext; intros k Hk. 
    replace (sadd (bsum F (fun i => smul (v i) (tl_ l k i))) s0) with (bsum F (fun i => smul (v i) (tl_ l k i))) by ring.
    replace (sadd (bsum F (fun i => smul (v' i) (tr k r i))) s0) with (bsum F (fun i => smul (v' i) (tr k r i))) by ring.
    symmetry. apply bsum_mulsum.
  Qed.
  Lemma merged_even_equiv t u ub b h : shp t = [2 * h; D; D; F] -> 0 < h -> bias_ok K ub b (2 * h) D -> shp u = [h; D; D; F; F] ->
    (forall s l r i j, s < h -> l < D -> r < D -> i < F -> j < F ->
        get u [s; l; r; i; j] = bsum D (fun k => smul (get t [2 * s; l; k; i]) (get t [2 * s + 1; k; r; j]))) ->
    mequiv [InputRegion t ub b] [MergedInput u].
  Proof.
    intros Ht Hh Hb Hu G.
    assert (W1 : wf (InputRegion t ub b)) by (exists (2 * h); split; [lia|]; split; assumption).
    assert (W2 : wf (MergedInput u)) by (exists h; split; [lia|exact Hu]).
    split; [repeat constructor; exact W1|]. split; [repeat constructor; exact W2|].
    split; [cbn; unfold size; rewrite Ht, Hu; cbn; lia|]. split; [cbn; unfold size; rewrite Ht, Hu; cbn; lia|].
    intros ind px o Ho. cbn [csem_all csem sem]. rewrite !app_nil_r. unfold size. rewrite Ht, Hu. cbn [nth].
    split; [apply sq_rcl|]. split; [apply sq_rcl|]. intros i j Hi Hj.
    set (C := fun s => site_matrix F (fun l r i0 => get t [s; l; r; i0]) no_bias (px (ind + s))).
    pose proof (rpair_chain K D h C [] i j) as E. rewrite !app_nil_r in E. rewrite <- E.
    apply (chain_eq_chain K D); [|exact Hi]. apply rcl_ext. intros s l r Hs Hl Hr. unfold C.
    assert (Hl' : l < D) by lia. assert (Hs' : s < h) by lia. symmetry.
    apply (merged_pair_value (fun l k i => get t [2 * s; l; k; i]) (fun k r j => get t [2 * s + 1; k; r; j])
             (px (ind + 2 * s)) (px (ind + (2 * s + 1))) (fun l r i j => get u [s; l; r; i; j])).
    intros i' j' Hi' Hj'. apply G; assumption.
  Qed.
  Lemma slice_equiv t ub b ub' b' n k : shp t = [n; D; D; F] -> 0 < k -> k < n -> bias_ok K ub b n D -> bias_ok K ub' b' k D -> bias_ok K ub' b' (n - k) D ->
    mequiv [InputRegion t ub b] [InputRegion (slice0 0 k t) ub' b'; InputRegion (slice0 k (n - k) t) ub' b'].
  Proof.
    intros Ht Hk Hkn Hb Hb1 Hb2.
    assert (S1 : shp (slice0 0 k t) = [k; D; D; F]) by (unfold slice0; cbn [shp]; rewrite Ht; reflexivity).
    assert (S2 : shp (slice0 k (n - k) t) = [n - k; D; D; F]) by (unfold slice0; cbn [shp]; rewrite Ht; reflexivity).
    assert (W : wf (InputRegion t ub b)) by (exists n; split; [lia|]; split; assumption).
    assert (W1 : wf (InputRegion (slice0 0 k t) ub' b')) by (exists k; split; [lia|]; split; assumption).
    assert (W2 : wf (InputRegion (slice0 k (n - k) t) ub' b')) by (exists (n - k); split; [lia|]; split; assumption).
    split; [repeat constructor; exact W|]. split; [repeat constructor; assumption|].
    split; [cbn; unfold size; rewrite Ht; cbn; lia|]. split; [cbn; unfold size; rewrite Ht; cbn; lia|].
    intros ind px o Ho. cbn [csem_all csem]. rewrite !app_nil_r.
    unfold size. rewrite Ht, S1, S2. cbn [nth mod_len]. unfold size. rewrite S1. cbn [nth].
    replace n with (k + (n - k)) at 1 by lia. rewrite rcl_split.
    split; [apply Forall_app; split; apply sq_rcl|]. split; [apply Forall_app; split; apply sq_rcl|].
    intros i j Hi Hj. apply (chain_eq_chain K D); [|exact Hi]. apply rchain_eq_app.
    - apply rcl_ext. intros; reflexivity.
    - intros d. apply rcl_ext. intros s l r _ _ _. unfold slice0. cbn [get hd tl]. rewrite Nat.add_assoc. reflexivity.
  Qed.
  Lemma sel_first t ub b : shp t = [1; D; D; F] -> bias_ok K ub b 1 D -> mequiv [InputRegion t ub b] [InputSite (sel0 t 0)].
  Proof.
    intros Ht Hb.
    assert (S1 : shp (sel0 t 0) = [D; D; F]) by (unfold sel0; cbn [shp]; rewrite Ht; reflexivity).
    assert (W : wf (InputRegion t ub b)) by (exists 1; split; [lia|]; split; assumption).
    split; [repeat constructor; exact W|]. split; [repeat constructor; exact S1|].
    split; [cbn; unfold size; rewrite Ht; cbn; lia|]. split; [cbn; unfold size; rewrite Ht; cbn; lia|].
    intros ind px o Ho. cbn [csem_all csem sem]. rewrite !app_nil_r. unfold size. rewrite Ht, S1. cbn [nth rcl seq map].
    apply eqc_refl. repeat constructor.
  Qed.
  (** the kinds of the pieces of a region of n sites *)
  Definition rk (o n : nat) : list kind :=
    if n =? 0 then [] else
    (if o =? 1 then [KI] else []) ++ (if (n - o) / 2 =? 0 then [] else [KM ((n - o) / 2)]) ++ (if (n - o) mod 2 =? 1 then [KI] else []).
  Definition inert (m : mod_) : Prop := match m with InputSite _ | MergedInput _ => True | _ => False end.
  Lemma input_region_any t ub n : shp t = [n; D; D; F] -> exists b, input_region K t ub None = Ok (InputRegion t ub b) /\ bias_ok K ub b n D.
  Proof.
    intros Ht. destruct (input_region K t ub None) as [m|e] eqn:E.
    - pose proof (input_region_form K t ub m n D F Ht E) as ->. eexists. split; [reflexivity|]. intros ->. eexists. split; [reflexivity|]. reflexivity.
    - exfalso. revert E. unfold input_region, ndim, size. rewrite Ht. cbn [List.length Nat.eqb assert_ rbind nth]. rewrite Nat.eqb_refl. cbn [assert_ rbind]. destruct ub; discriminate.
  Qed.
  Lemma merge_slice_ok t n a h : shp t = [n; D; D; F] -> a + 2 * h <= n ->
    exists om, merge_slice K a (2 * h) t = Ok om /\ Forall inert (opt_list om) /\
      kinds (opt_list om) = (if h =? 0 then [] else [KM h]) /\
      (0 < h -> forall ub b, bias_ok K ub b (2 * h) D -> mequiv [InputRegion (slice0 a (2 * h) t) ub b] (opt_list om)).
  Proof.
    intros Ht Ha. assert (S1 : shp (slice0 a (2 * h) t) = [2 * h; D; D; F]) by (unfold slice0; cbn [shp]; rewrite Ht; reflexivity).
    unfold merge_slice. destruct (input_region_any _ true _ S1) as (b & E & _). rewrite E. cbn [rbind].
    destruct (Nat.eqb_spec h 0) as [->|Hh].
    - unfold merge_even, size. rewrite S1. cbn [nth Nat.mul Nat.eqb]. exists None. split; [reflexivity|]. split; [constructor|]. split; [reflexivity|]. lia.
    - destruct (merge_even_ok _ h S1 ltac:(lia)) as (m & Em & Hm & Gm). exists (Some (MergedInput m)). split; [exact Em|].
      split; [repeat constructor|]. split; [cbn; unfold size; rewrite Hm; reflexivity|]. intros Hp ub b' Hb.
      apply (merged_even_equiv _ m ub b' h); auto.
  Qed.
  Lemma slice_all t n : shp t = [n; D; D; F] -> forall ub b, bias_ok K ub b n D -> 0 < n -> mequiv [InputRegion t ub b] [InputRegion (slice0 0 n t) ub b].
  Proof.
    intros Ht ub b Hb Hn.
    assert (S1 : shp (slice0 0 n t) = [n; D; D; F]) by (unfold slice0; cbn [shp]; rewrite Ht; reflexivity).
    assert (W : wf (InputRegion t ub b)) by (exists n; split; [lia|]; split; assumption).
    assert (W1 : wf (InputRegion (slice0 0 n t) ub b)) by (exists n; split; [lia|]; split; assumption).
    split; [repeat constructor; exact W|]. split; [repeat constructor; exact W1|].
    split; [cbn; unfold size; rewrite Ht; cbn; lia|]. split; [cbn; unfold size; rewrite Ht; cbn; lia|].
    intros ind px o Ho. cbn [csem_all csem]. rewrite !app_nil_r. unfold size. rewrite Ht, S1. cbn [nth]. apply eqc_refl. apply sq_rcl.
  Qed.
  (** cut off the first site / the last site *)
  Lemma cut_first t n ub b : shp t = [n; D; D; F] -> 1 < n -> bias_ok K ub b n D -> 
    mequiv [InputRegion t ub b] [InputSite (sel0 t 0); InputRegion (slice0 1 (n - 1) t) false None].
  Proof.
    intros Ht Hn Hb. eapply mequiv_trans; [apply (slice_equiv t ub b false None n 1); auto; try lia; intros X; discriminate X|].
    change [InputRegion (slice0 0 1 t) false None; InputRegion (slice0 1 (n - 1) t) false None] with ([InputRegion (slice0 0 1 t) false None] ++ [InputRegion (slice0 1 (n - 1) t) false None]).
    change [InputSite (sel0 t 0); InputRegion (slice0 1 (n - 1) t) false None] with ([InputSite (sel0 (slice0 0 1 t) 0)] ++ [InputRegion (slice0 1 (n - 1) t) false None]).
    apply mequiv_app; [apply sel_first; [unfold slice0; cbn [shp]; rewrite Ht; reflexivity|intros X; discriminate X]|].
    apply mequiv_refl. repeat constructor. exists (n - 1). split; [lia|]. split; [unfold slice0; cbn [shp]; rewrite Ht; reflexivity|intros X; discriminate X].
  Qed.
  Lemma cut_last t n ub b : shp t = [n; D; D; F] -> 1 < n -> bias_ok K ub b n D -> 
    mequiv [InputRegion t ub b] [InputRegion (slice0 0 (n - 1) t) false None; InputSite (sel0 t (n - 1))].
  Proof.
    intros Ht Hn Hb. eapply mequiv_trans; [apply (slice_equiv t ub b false None n (n - 1)); auto; try lia; intros X; discriminate X|].
    replace (n - (n - 1)) with 1 by lia.
    change [InputRegion (slice0 0 (n - 1) t) false None; InputRegion (slice0 (n - 1) 1 t) false None] with ([InputRegion (slice0 0 (n - 1) t) false None] ++ [InputRegion (slice0 (n - 1) 1 t) false None]).
    change [InputRegion (slice0 0 (n - 1) t) false None; InputSite (sel0 t (n - 1))] with ([InputRegion (slice0 0 (n - 1) t) false None] ++ [InputSite (sel0 t (n - 1))]).
    apply mequiv_app.
    - apply mequiv_refl. repeat constructor. exists (n - 1). split; [lia|]. split; [unfold slice0; cbn [shp]; rewrite Ht; reflexivity|intros X; discriminate X].
    - replace (sel0 t (n - 1)) with (sel0 (slice0 (n - 1) 1 t) 0).
      + apply sel_first; [unfold slice0; cbn [shp]; rewrite Ht; reflexivity|intros X; discriminate X].
      + unfold sel0, slice0. cbn [shp tl get hd]. f_equal. rewrite Nat.add_0_r. reflexivity.
  Qed.
  Lemma no_bias_ok n : bias_ok K false None n D. Proof. intros X; discriminate X. Qed.
  Lemma odd_half n : n mod 2 = 1 -> n = 2 * (n / 2) + 1.
  Proof. intros H. pose proof (Nat.div_mod n 2 ltac:(lia)). lia. Qed.
  Lemma even_half n : n mod 2 = 0 -> n = 2 * (n / 2).
  Proof. intros H. pose proof (Nat.div_mod n 2 ltac:(lia)). lia. Qed.
  Lemma mod2_cases n : n mod 2 = 0 \/ n mod 2 = 1.
  Proof. pose proof (Nat.mod_upper_bound n 2 ltac:(lia)). lia. Qed.
  Lemma div_even h : 2 * h / 2 = h. Proof. rewrite Nat.mul_comm. apply Nat.div_mul. lia. Qed.
  Lemma div_odd h : (2 * h + 1) / 2 = h. Proof. rewrite (Nat.add_comm _ 1), (Nat.mul_comm 2 h), Nat.div_add by lia. reflexivity. Qed.
  Lemma mod_even h : (2 * h) mod 2 = 0. Proof. rewrite Nat.mul_comm. apply Nat.mod_mul. lia. Qed.
  Lemma mod_odd h : (2 * h + 1) mod 2 = 1. Proof. rewrite (Nat.add_comm _ 1), (Nat.mul_comm 2 h), Nat.mod_add by lia. reflexivity. Qed.
  Lemma region_merge_ok t n o ub b : shp t = [n; D; D; F] -> 0 < n -> o < 2 -> bias_ok K ub b n D ->
    exists l, region_merge K t o = Ok l /\ Forall inert l /\ kinds l = rk o n /\ mequiv [InputRegion t ub b] l.
  Proof.
    intros Ht Hn Ho Hb. unfold region_merge, size. rewrite Ht. cbn [nth].
    assert (Eo : (o =? 0) || (o =? 1) = true) by (destruct o as [|[|o]]; [reflexivity|reflexivity|lia]). rewrite Eo. cbn [assert_ rbind].
    destruct (Nat.eqb_spec n 0) as [|_]; [lia|]. unfold rk. destruct (Nat.eqb_spec n 0) as [|_]; [lia|].
    destruct (mod2_cases n) as [E|E]; rewrite E; cbn [Nat.eqb].
    - (* even *)
      pose proof (even_half n E) as En. set (h := n / 2) in *. clearbody h.
      destruct o as [|[|o]]; [| |lia]; cbn [Nat.eqb].
      + rewrite Nat.sub_0_r. subst n.
        destruct (merge_even_ok t h Ht ltac:(lia)) as (m & Em & Hm & Gm). rewrite Em. cbn [rbind opt_list].
        eexists. split; [reflexivity|]. split; [repeat constructor|].
        rewrite div_even, E. cbn [Nat.eqb app]. destruct (Nat.eqb_spec h 0) as [|_]; [lia|].
        split; [cbn; unfold size; rewrite Hm; reflexivity|]. apply (merged_even_equiv t m ub b h); auto; lia.
      + destruct h as [|h]; [lia|]. replace (n - 2) with (2 * h) by lia. replace (n - 1) with (2 * h + 1) by lia.
        destruct (merge_slice_ok t n 1 h Ht ltac:(lia)) as (om & Em & I1 & K1 & Q). rewrite Em. cbn [rbind].
        eexists. split; [reflexivity|]. split; [constructor; [exact Logic.I|]; apply Forall_app; split; [exact I1|repeat constructor]|].
        rewrite div_odd, mod_odd. cbn [Nat.eqb]. split.
        { unfold kinds in *. cbn [map kind_of]. rewrite map_app, K1. reflexivity. }
        eapply mequiv_trans; [apply (cut_first t n ub b Ht ltac:(lia) Hb)|].
        change (InputSite (sel0 t 0) :: opt_list om ++ [InputSite (sel0 t (2 * h + 1))]) with ([InputSite (sel0 t 0)] ++ opt_list om ++ [InputSite (sel0 t (2 * h + 1))]).
        change [InputSite (sel0 t 0); InputRegion (slice0 1 (n - 1) t) false None] with ([InputSite (sel0 t 0)] ++ [InputRegion (slice0 1 (n - 1) t) false None]).
        apply mequiv_app; [apply mequiv_refl; repeat constructor; unfold wf, wf_mod, sel0; cbn [shp]; rewrite Ht; reflexivity|].
        assert (S1 : shp (slice0 1 (n - 1) t) = [n - 1; D; D; F]) by (unfold slice0; cbn [shp]; rewrite Ht; reflexivity).
        assert (El : sel0 t (2 * h + 1) = sel0 (slice0 1 (n - 1) t) (n - 1 - 1)).
        { unfold sel0, slice0. cbn [shp tl get hd]. f_equal. replace (1 + (n - 1 - 1)) with (2 * h + 1) by lia. reflexivity. }
        rewrite El. destruct (Nat.eq_dec h 0) as [->|Hh].
        * destruct om; [discriminate K1|]. cbn [opt_list app]. replace (n - 1 - 1) with 0 by lia.
          apply sel_first; [rewrite S1; repeat f_equal; lia|apply no_bias_ok].
        * eapply mequiv_trans; [apply (cut_last _ _ false None S1 ltac:(lia) (no_bias_ok _))|].
          change [InputRegion (slice0 0 (n - 1 - 1) (slice0 1 (n - 1) t)) false None; InputSite (sel0 (slice0 1 (n - 1) t) (n - 1 - 1))]
            with ([InputRegion (slice0 0 (n - 1 - 1) (slice0 1 (n - 1) t)) false None] ++ [InputSite (sel0 (slice0 1 (n - 1) t) (n - 1 - 1))]).
          apply mequiv_app; [|apply mequiv_refl; repeat constructor; unfold wf, wf_mod, sel0; cbn [shp]; rewrite S1; reflexivity].
          replace (slice0 0 (n - 1 - 1) (slice0 1 (n - 1) t)) with (slice0 1 (2 * h) t) by (unfold slice0; cbn [shp tl get hd]; f_equal; f_equal; lia).
          apply Q; [lia|apply no_bias_ok].
    - (* odd *)
      pose proof (odd_half n E) as En. set (h := n / 2) in *. clearbody h.
      destruct o as [|[|o]]; [| |lia]; cbn [Nat.eqb].
      + rewrite Nat.sub_0_r. replace (n - 1) with (2 * h) by lia.
        destruct (merge_slice_ok t n 0 h Ht ltac:(lia)) as (om & Em & I1 & K1 & Q). rewrite Em. cbn [rbind].
        eexists. split; [reflexivity|]. split; [apply Forall_app; split; [exact I1|repeat constructor]|].
        assert (Hd : n / 2 = h) by (rewrite En; apply div_odd). rewrite Hd, E. cbn [Nat.eqb app]. split.
        { unfold kinds in *. rewrite map_app, K1. reflexivity. }
        destruct (Nat.eq_dec h 0) as [->|Hh].
        * destruct om; [discriminate K1|]. cbn [opt_list app]. change (2 * 0) with 0. apply sel_first; [rewrite Ht; repeat f_equal; lia|].
          intros ->. destruct (Hb eq_refl) as (b0 & -> & H0). exists b0. auto.
        * eapply mequiv_trans; [apply (cut_last t n ub b Ht ltac:(lia) Hb)|]. replace (n - 1) with (2 * h) by lia.
          change [InputRegion (slice0 0 (2 * h) t) false None; InputSite (sel0 t (2 * h))] with ([InputRegion (slice0 0 (2 * h) t) false None] ++ [InputSite (sel0 t (2 * h))]).
          apply mequiv_app; [apply Q; [lia|apply no_bias_ok]|]. apply mequiv_refl; repeat constructor; unfold wf, wf_mod, sel0; cbn [shp]; rewrite Ht; reflexivity.
      + replace (n - 1) with (2 * h) by lia.
        destruct (merge_slice_ok t n 1 h Ht ltac:(lia)) as (om & Em & I1 & K1 & Q). rewrite Em. cbn [rbind].
        eexists. split; [reflexivity|]. split; [constructor; [exact Logic.I|exact I1]|].
        rewrite div_even, mod_even. cbn [Nat.eqb app]. rewrite app_nil_r. split.
        { unfold kinds in *. cbn [map kind_of]. rewrite K1. reflexivity. }
        destruct (Nat.eq_dec h 0) as [->|Hh].
        * destruct om; [discriminate K1|]. cbn [opt_list]. apply sel_first; [rewrite Ht; repeat f_equal; lia|].
          intros ->. destruct (Hb eq_refl) as (b0 & -> & H0). exists b0. auto.
        * eapply mequiv_trans; [apply (cut_first t n ub b Ht ltac:(lia) Hb)|]. replace (n - 1) with (2 * h) by lia.
          change [InputSite (sel0 t 0); InputRegion (slice0 1 (2 * h) t) false None] with ([InputSite (sel0 t 0)] ++ [InputRegion (slice0 1 (2 * h) t) false None]).
          change (InputSite (sel0 t 0) :: opt_list om) with ([InputSite (sel0 t 0)] ++ opt_list om).
          apply mequiv_app; [apply mequiv_refl; repeat constructor; unfold wf, wf_mod, sel0; cbn [shp]; rewrite Ht; reflexivity|].
          apply Q; [lia|apply no_bias_ok].
  Qed.
  Lemma klen_app a b : klen (a ++ b) = klen a + klen b.
  Proof. induction a as [|k a IH]; cbn [app klen fold_right]; [reflexivity|]. unfold klen in *. rewrite IH. lia. Qed.
  Lemma klen_rk o n : o < 2 -> klen (rk o n) = n.
  Proof.
    intros Ho. unfold rk. destruct (Nat.eqb_spec n 0) as [->|Hn]; [reflexivity|].
    rewrite !klen_app. assert (M : klen (if (n - o) / 2 =? 0 then [] else [KM ((n - o) / 2)]) = 2 * ((n - o) / 2)).
    { destruct (Nat.eqb_spec ((n - o) / 2) 0) as [->|]; cbn; lia. }
    rewrite M. clear M. pose proof (Nat.div_mod (n - o) 2 ltac:(lia)) as DM. set (h := (n - o) / 2) in *. clearbody h.
    destruct (mod2_cases (n - o)) as [E|E]; rewrite E in *; cbn [Nat.eqb klen fold_right klen1];
    (destruct o as [|[|o]]; [| |lia]; cbn [Nat.eqb klen fold_right klen1]; lia).
  Qed.
End P.
