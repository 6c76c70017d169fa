(** * TmProofs: the forward pass of a list of modules is an ordered matrix product *)
From Verif Require Import Base Scalars Tensor Spec LinAlg EinsumProofs Contractables ContrSpec ContrProofs ContrReduce Utils TorchMps TmSpec.

Section P.
  Variable K : cring.
  Add Ring Kr : (rth K).
  Notation T := (tensor K).
  Implicit Types t u x : T.

  (** *** the einsum calls *)
  Lemma e_region_in t x n D D' F B : shp t = [n; D; D'; F] -> shp x = [B; n; F] ->
    exists v, einsum "slri,bsi->bslr" [t; x] = Ok v /\ shp v = [B; n; D; D'] /\
      forall b s i j, b < B -> s < n -> i < D -> j < D' -> get v [b; s; i; j] = bsum F (fun k => smul (get t [s; i; j; k]) (get x [b; s; k])).
  Proof. intros Ht Hx. eins_open. eexists. split; [reflexivity|]. split; [reflexivity|]. intros. eins_get. eins_sum. Qed.
  Lemma e_site_in t x D D' F B : shp t = [D; D'; F] -> shp x = [B; F] ->
    exists v, einsum "lri,bi->blr" [t; x] = Ok v /\ shp v = [B; D; D'] /\
      forall b i j, b < B -> i < D -> j < D' -> get v [b; i; j] = bsum F (fun k => smul (get t [i; j; k]) (get x [b; k])).
  Proof. intros Ht Hx. eins_open. eexists. split; [reflexivity|]. split; [reflexivity|]. intros. eins_get. eins_sum. Qed.
  Lemma e_merged_odd t x n D D' F F' B : shp t = [n; D; D'; F; F'] -> shp x = [B; n; F'] ->
    exists v, einsum "slrij,bsj->bslri" [t; x] = Ok v /\ shp v = [B; n; D; D'; F] /\
      forall b s l r i, b < B -> s < n -> l < D -> r < D' -> i < F -> get v [b; s; l; r; i] = bsum F' (fun k => smul (get t [s; l; r; i; k]) (get x [b; s; k])).
  Proof. intros Ht Hx. eins_open. eexists. split; [reflexivity|]. split; [reflexivity|]. intros. eins_get. eins_sum. Qed.
  Lemma e_merged_even t x n D D' F B : shp t = [B; n; D; D'; F] -> shp x = [B; n; F] ->
    exists v, einsum "bslri,bsi->bslr" [t; x] = Ok v /\ shp v = [B; n; D; D'] /\
      forall b s l r, b < B -> s < n -> l < D -> r < D' -> get v [b; s; l; r] = bsum F (fun k => smul (get t [b; s; l; r; k]) (get x [b; s; k])).
  Proof. intros Ht Hx. eins_open. eexists. split; [reflexivity|]. split; [reflexivity|]. intros. eins_get. eins_sum. Qed.
  Lemma e_merged_out t x O D D' F B : shp t = [O; D; D'; F] -> shp x = [B; F] ->
    exists v, einsum "olri,bi->bolr" [t; x] = Ok v /\ shp v = [B; O; D; D'] /\
      forall b o l r, b < B -> o < O -> l < D -> r < D' -> get v [b; o; l; r] = bsum F (fun k => smul (get t [o; l; r; k]) (get x [b; k])).
  Proof. intros Ht Hx. eins_open. eexists. split; [reflexivity|]. split; [reflexivity|]. intros. eins_get. eins_sum. Qed.
  Lemma e_trace t B O D : shp t = [B; O; D; D] ->
    exists v, einsum "boll->bo" [t] = Ok v /\ shp v = [B; O] /\
      forall b o, b < B -> o < O -> get v [b; o] = bsum D (fun k => get t [b; o; k; k]).
  Proof. intros Ht. eins_open. eexists. split; [reflexivity|]. split; [reflexivity|]. intros. eins_get. eins_sum. Qed.

  (** *** bias *)
  Definition bias_ok (ub : bool) (bias : option T) (n D : nat) : Prop :=
    ub = true -> exists b, bias = Some b /\ shp b = [1; D; D].
  Lemma bias_add mats b B n D : shp mats = [B; n; D; D] -> shp b = [1; D; D] ->
    exists v, (let* e := expand (unsq_front 1 b) (shp mats) in tzip (sadd (s := K)) mats e) = Ok v /\ shp v = [B; n; D; D] /\
      forall c s i j, c < B -> s < n -> i < D -> j < D -> get v [c; s; i; j] = sadd (get mats [c; s; i; j]) (get b [0; i; j]).
  Proof.
    intros Hm Hb. unfold expand, unsq_front. cbn [shp]. rewrite Hb, Hm. cbn [rev app repeat exp_ok_rev Nat.eqb].
    rewrite !Nat.eqb_refl, !orb_true_r. cbn [orb andb rbind].
    destruct (tzip_same (sadd (s := K)) mats (mkT [B; n; D; D] (fun i => get b (skipn 1 (bproj [1; 1; D; D] i)))) [B; n; D; D] Hm eq_refl) as (v & Ev & Hv & Gv).
    exists v. split; [exact Ev|]. split; [exact Hv|]. intros c s i j Hc Hs Hi Hj.
    rewrite Gv by (repeat constructor; assumption). cbn [get]. f_equal. unfold bproj, lastn. cbn [List.length Nat.sub skipn map2].
    rewrite (bidx_valid D i) by assumption. rewrite (bidx_valid D j) by assumption. reflexivity.
  Qed.

  (** *** what a module computes from its feature vectors [px s] *)
  Definition sem (F : nat) (m : module K) (px : nat -> vec K) (o : nat) : list (nat * mat K) :=
    match m with
    | InputRegion t ub _ => rcl K (size 1 t) (fun s => site_matrix F (fun l r i => get t [s; l; r; i]) (mod_bias m) (px s)) 0 (size 0 t)
    | OutputSite t => [(size 1 t, fun l r => get t [o; l; r])]
    | InputSite t => [(size 0 t, site_matrix F (fun l r i => get t [l; r; i]) no_bias (px 0))]
    | MergedInput t => rcl K (size 1 t) (fun s l r => bsum F (fun i => bsum F (fun j =>
          smul (get t [s; l; r; i; j]) (smul (px (2 * s) i) (px (2 * s + 1) j))))) 0 (size 0 t)
    | MergedOutput t _ => [(size 1 t, fun l r => bsum F (fun i => smul (px 0 i) (get t [o; l; r; i])))]
    end.
  Definition is_output (m : module K) : bool := match m with OutputSite _ | MergedOutput _ _ => true | _ => false end.
  Definition lone (m : module K) : bool := match m with OutputSite _ => true | _ => false end.
  Definition wf_mod (D F O : nat) (m : module K) : Prop :=
    match m with
    | InputRegion t ub b => exists n, 0 < n /\ shp t = [n; D; D; F] /\ bias_ok ub b n D
    | OutputSite t => shp t = [O; D; D]
    | InputSite t => shp t = [D; D; F]
    | MergedInput t => exists n, 0 < n /\ shp t = [n; D; D; F; F]
    | MergedOutput t _ => shp t = [O; D; D; F]
    end.
  (** the input a module expects *)
  Definition in_ok (F : nat) (m : module K) (B : nat) (x : T) : Prop :=
    match m with
    | InputRegion _ _ _ | MergedInput _ => shp x = [B; mod_len m; F]
    | OutputSite _ => True
    | InputSite _ | MergedOutput _ _ => shp x = [B; F]
    end.
  (** the feature vectors in the input of a module *)
  Definition pixels (m : module K) (x : T) (b : nat) : nat -> vec K :=
    match m with
    | InputSite _ | MergedOutput _ _ => fun _ i => get x [b; i]
    | _ => fun s i => get x [b; s; i]
    end.

  Lemma mat_region_ok t B n D g : shp t = [B; n; D; D] -> mat_region K t g = (Ok (mkA KMatRegion t "bslr"), Some B).
  Proof.
    intros Ht. unfold mat_region, ndim, dimE. rewrite Ht. cbn [List.length rev app nth Nat.eqb orb andb]. rewrite Nat.eqb_refl.
    apply init_full with (r := [n; D; D]); [exact Ht|reflexivity|reflexivity].
  Qed.
  Lemma expand_batch t B d r : shp t = r -> 0 < d -> exists v, expand (unsq_front 1 t) (B :: r) = Ok v /\ shp v = B :: r /\
    forall b i, b < B -> valid r i -> get v (b :: i) = get t i.
  Proof.
    intros Ht _. unfold expand, unsq_front. cbn [shp repeat app]. rewrite Ht.
    assert (E : exp_ok_rev (rev (1 :: r)) (rev (B :: r)) = true).
    { cbn [rev]. induction (rev r) as [|y l IH]; cbn [app exp_ok_rev]; [rewrite orb_true_r; reflexivity|]. rewrite Nat.eqb_refl. cbn [orb andb]. exact IH. }
    rewrite E. eexists. split; [reflexivity|]. split; [reflexivity|]. intros b i Hb Hi. cbn [get].
    unfold bproj. rewrite lastn_all by (cbn; f_equal; apply valid_length; exact Hi). cbn [map2 skipn].
    f_equal. rewrite map2_bidx_valid by exact Hi. reflexivity.
  Qed.
  Lemma init_short c t bond B r g v : shp t = r -> r <> [] -> g = Some B ->
    expand (unsq_front 1 t) (B :: r) = Ok v ->
    String.length bond = Datatypes.S (List.length r) -> hd_error (chars bond) = Some "b"%char ->
    init K c t bond g = (Ok (mkA c v bond), g).
  Proof.
    intros Ht Hr -> Ev Hl Hb. unfold init, ndim. rewrite Ht, Ev. destruct r as [|r0 r]; [contradiction|].
    destruct (chars bond) as [|b0 rest]; [discriminate|]. cbn in Hb. injection Hb as ->.
    rewrite Hl. cbn [inb existsb]. rewrite !Ascii.eqb_refl. cbn [orb negb andb].
    replace (Datatypes.S (List.length (r0 :: r)) =? List.length (r0 :: r) + 1) with true by (symmetry; apply Nat.eqb_eq; lia).
    reflexivity.
  Qed.

  Lemma mod_forward_ok D F O m x B g : wf_mod D F O m -> in_ok F m B x -> (lone m = true -> g = Some B) ->
    exists a, mod_forward K m x g = (Ok a, Some B) /\ typed a B D D (if is_output m then Some O else None) /\ is_mid K a /\
      (forall b o i j, b < B -> o < osize (if is_output m then Some O else None) -> i < D -> j < D ->
         meaning a b o i j = chain (sem F m (pixels m x b) o) i j).
  Proof.
    intros W I Hg. destruct m as [t ub bias|t|t|t|t lo]; cbn [wf_mod in_ok lone is_output] in *.
    - destruct W as (n & Hn & Ht & Hb). cbn [mod_len] in I. unfold size in I. rewrite Ht in I. cbn [nth] in I.
      destruct (e_region_in t x n D D F B Ht I) as (v & Ev & Hv & Gv).
      assert (exists w, (if ub then match bias with Some b => let* e := expand (unsq_front 1 b) (shp v) in tzip (sadd (s := K)) v e | None => Err AttributeError end else Ok v) = Ok w /\
         shp w = [B; n; D; D] /\ forall c s i j, c < B -> s < n -> i < D -> j < D -> get w [c; s; i; j] = sadd (get v [c; s; i; j]) (mod_bias (InputRegion t ub bias) i j)) as (w & Ew & Hw & Gw).
      { destruct ub.
        - destruct (Hb eq_refl) as (b & -> & Hsb). destruct (bias_add v b B n D Hv Hsb) as (w & Ew & Hw & Gw). eauto.
        - exists v. split; [reflexivity|]. split; [exact Hv|]. intros. cbn. unfold no_bias. ring. }
      exists (mkA KMatRegion w "bslr"). split; [|split; [|split]].
      + cbn [mod_forward mod_len]. unfold mbind, lift, ndim, size. rewrite I, Ht. cbn [List.length Nat.eqb nth assert_]. rewrite !Nat.eqb_refl. cbn [assert_]. rewrite Ev, Ew.
        apply mat_region_ok with (n := n) (D := D). exact Hw.
      + econstructor; [exact Hw|exact Hn].
      + right; left; reflexivity.
      + intros b o i j Hb' Ho Hi Hj. rewrite (meaning_region K w b o B n D i j Hw). cbn [sem pixels]. unfold size. rewrite Ht. cbn [nth].
        apply (chain_eq_chain K D); [|exact Hi]. unfold slices. apply rcl_ext. intros s p q Hs Hp Hq. rewrite Nat.max_id in Hp. cbv beta.
        rewrite Gw, Gv by (assumption || lia). unfold site_matrix. f_equal. apply bsum_ext. intros k Hk. ring.
    - rewrite (Hg eq_refl).
      destruct (expand_batch t B 1 [O; D; D] W ltac:(lia)) as (v & Ev & Hv & Gv).
      exists (mkA KOutputCore v "bolr"). split; [|split; [|split]].
      + cbn [mod_forward]. unfold output_core, ndim. rewrite W. cbn [List.length Nat.eqb orb].
        apply (init_short _ t "bolr" B [O; D; D]); [exact W|discriminate|reflexivity|exact Ev|reflexivity|reflexivity].
      + constructor; exact Hv.
      + right; right; reflexivity.
      + intros b o i j Hb Ho Hi Hj. cbn [sem]. rewrite chain_single by (unfold size; rewrite W; exact Hj).
        unfold meaning; cbn [a_bond a_ten String.eqb Ascii.eqb Bool.eqb andb]. apply Gv; [assumption|repeat constructor; assumption].
    - destruct (e_site_in t x D D F B W I) as (v & Ev & Hv & Gv). exists (mkA KSingleMat v "blr"). split; [|split; [|split]].
      + cbn [mod_forward]. unfold mbind, lift, ndim, size. rewrite I, W. cbn [List.length Nat.eqb nth assert_]. rewrite Nat.eqb_refl. cbn [assert_]. rewrite Ev.
        unfold single_mat, ndim. rewrite Hv. cbn [List.length Nat.eqb orb]. apply init_full with (r := [D; D]); [exact Hv|reflexivity|reflexivity].
      + constructor; exact Hv.
      + left; reflexivity.
      + intros b o i j Hb Ho Hi Hj. cbn [sem pixels]. rewrite chain_single by (unfold size; rewrite W; exact Hj).
        unfold meaning; cbn [a_bond a_ten String.eqb Ascii.eqb Bool.eqb andb]. rewrite Gv by assumption.
        unfold site_matrix, no_bias. transitivity (sadd (bsum F (fun k => smul (get t [i; j; k]) (get x [b; k]))) s0); [ring|]. f_equal. apply bsum_ext. intros. ring.
    - destruct W as (n & Hn & Ht). cbn [mod_len] in I. unfold size in I. rewrite Ht in I. cbn [nth] in I.
      set (h := 2 * n / 2). assert (Hh : h = n) by (unfold h; rewrite Nat.mul_comm; apply Nat.div_mul; lia).
      assert (Hev : shp (sliceE 1 h (fun p => 2 * p) x) = [B; n; F]) by (unfold sliceE; cbn [shp]; rewrite I, Hh; reflexivity).
      assert (Hod : shp (sliceE 1 h (fun p => 2 * p + 1) x) = [B; n; F]) by (unfold sliceE; cbn [shp]; rewrite I, Hh; reflexivity).
      destruct (e_merged_odd t _ n D D F F B Ht Hod) as (u & Eu & Hu & Gu).
      destruct (e_merged_even u _ n D D F B Hu Hev) as (v & Ev & Hv & Gv).
      exists (mkA KMatRegion v "bslr"). split; [|split; [|split]].
      + cbn [mod_forward mod_len]. unfold mbind, lift, ndim, size. rewrite I, Ht. cbn [List.length Nat.eqb nth assert_]. rewrite !Nat.eqb_refl. cbn [assert_].
        replace (2 * n mod 2) with 0 by (rewrite Nat.mul_comm, Nat.mod_mul; lia). cbn [Nat.eqb assert_]. fold h. rewrite Eu, Ev.
        apply mat_region_ok with (n := n) (D := D). exact Hv.
      + econstructor; [exact Hv|exact Hn].
      + right; left; reflexivity.
      + intros b o i j Hb Ho Hi Hj. rewrite (meaning_region K v b o B n D i j Hv). cbn [sem pixels]. unfold size. rewrite Ht. cbn [nth].
        apply (chain_eq_chain K D); [|exact Hi]. unfold slices. apply rcl_ext. intros s p q Hs Hp Hq. rewrite Nat.max_id in Hp. cbv beta.
        rewrite Gv by (assumption || lia). apply bsum_ext. intros k Hk. rewrite Gu by (assumption || lia).
        rewrite <- bsum_mul_r. apply bsum_ext. intros k' Hk'.
        change (get (sliceE 1 h (fun p => 2 * p + 1) x) [b; s; k']) with (get x [b; 2 * s + 1; k']).
        change (get (sliceE 1 h (fun p => 2 * p) x) [b; s; k]) with (get x [b; 2 * s; k]). ring.
    - destruct (e_merged_out t x O D D F B W I) as (v & Ev & Hv & Gv). exists (mkA KOutputCore v "bolr"). split; [|split; [|split]].
      + cbn [mod_forward]. unfold mbind, lift, ndim, size. rewrite I, W. cbn [List.length Nat.eqb nth assert_]. rewrite Nat.eqb_refl. cbn [assert_]. rewrite Ev.
        unfold output_core, ndim. rewrite Hv. cbn [List.length Nat.eqb orb]. apply init_full with (r := [O; D; D]); [exact Hv|reflexivity|reflexivity].
      + constructor; exact Hv.
      + right; right; reflexivity.
      + intros b o i j Hb Ho Hi Hj. cbn [sem pixels]. rewrite chain_single by (unfold size; rewrite W; exact Hj).
        unfold meaning; cbn [a_bond a_ten String.eqb Ascii.eqb Bool.eqb andb]. rewrite Gv by assumption. apply bsum_ext. intros. ring.
  Qed.

  (** *** a list of modules *)
  (** a region with one site gets an input with two axes and fails *)
  Definition not_short (m : module K) : Prop := match m with InputRegion t _ _ => size 0 t <> 1 | _ => True end.
  Fixpoint sem_all (F : nat) (mods : list (module K)) (ind : nat) (px : nat -> vec K) (o : nat) : list (nat * mat K) :=
    match mods with
    | [] => []
    | m :: mods' => sem F m (fun s => px (ind + s)) o ++ sem_all F mods' (ind + mod_len m) px o
    end.
  Definition px_of (x : T) (b : nat) : nat -> vec K := fun s i => get x [b; s; i].
  Definition outs (mods : list (module K)) : list (module K) := filter is_output mods.
  Definition out_of (O : nat) (mods : list (module K)) : option nat := match outs mods with [] => None | _ => Some O end.

  Lemma sem_ext F m px px' o D O : wf_mod D F O m -> (forall s i, i < F -> px s i = px' s i) -> chain_eq K D (sem F m px o) (sem F m px' o).
  Proof.
    intros W H. destruct m as [t ub bias|t|t|t|t lo]; cbn [sem wf_mod] in *.
    - apply rcl_ext. intros s i j _ _ _. unfold site_matrix. f_equal. apply bsum_ext. intros k Hk. rewrite H by exact Hk. reflexivity.
    - apply chain_eq_refl.
    - cbn [chain_eq]. split; [reflexivity|]. split; [|exact Logic.I]. intros i k _ _. unfold site_matrix. f_equal. apply bsum_ext. intros. rewrite H by assumption. reflexivity.
    - apply rcl_ext. intros s i j _ _ _. apply bsum_ext. intros k Hk. apply bsum_ext. intros k' Hk'. rewrite !H by assumption. reflexivity.
    - cbn [chain_eq]. split; [reflexivity|]. split; [|exact Logic.I]. intros i k _ _. apply bsum_ext. intros. rewrite H by assumption. reflexivity.
  Qed.
  Lemma sem_cols F m px o D O : wf_mod D F O m -> Forall (fun p => fst p = D) (sem F m px o).
  Proof.
    intros W. assert (R : forall C a n, Forall (fun p => fst p = D) (rcl K D C a n)).
    { intros C a n. apply Forall_forall. intros p Hp. unfold rcl in Hp. apply in_map_iff in Hp as (s & <- & _). reflexivity. }
    destruct m as [t ub bias|t|t|t|t lo]; cbn [sem wf_mod] in *.
    - destruct W as (n & _ & Ht & _). unfold size at 1. rewrite Ht. apply R.
    - repeat constructor. unfold size. rewrite W. reflexivity.
    - repeat constructor. unfold size. rewrite W. reflexivity.
    - destruct W as (n & _ & Ht). unfold size at 1. rewrite Ht. apply R.
    - repeat constructor. unfold size. rewrite W. reflexivity.
  Qed.
  Lemma cols_all D (l : list (nat * mat K)) : Forall (fun p => fst p = D) l -> cols K D l = D.
  Proof. induction 1 as [|[n M] l Hn H IH]; [reflexivity|]. rewrite cols_cons. cbn in Hn. subst. exact IH. Qed.

  Lemma mods_forward_ok D F O mods x B N : shp x = [B; N; F] ->
    forall ind g, Forall (wf_mod D F O) mods -> Forall not_short mods ->
    List.length (outs mods) <= 1 -> (match mods with m :: _ => lone m = true -> g = Some B | [] => True end) ->
    exists l, mods_forward K mods ind x g = (Ok l, match mods with [] => g | _ => Some B end) /\
      chain_typed B D l D (out_of O mods) /\ Forall (fun a => is_mid K a /\ exists o', typed a B D D o') l /\ List.length l = List.length mods /\
      forall b o i j, b < B -> o < osize (out_of O mods) -> i < D -> j < D ->
        product l b o i j = chain (sem_all F mods ind (px_of x b) o) i j.
  Proof.
    intros Hx. induction mods as [|m mods IH]; intros ind g Hwf Hns Hout Hg.
    - exists []. split; [reflexivity|]. split; [constructor|]. split; [constructor|]. split; [reflexivity|]. intros; reflexivity.
    - inversion Hwf as [|? ? Wm Wms]; subst. inversion Hns as [|? ? Nm Nms]; subst.
      set (inp := if mod_len m =? 1 then selE 1 x ind else sliceE 1 (mod_len m) (fun p => ind + p) x).
      assert (Iok : in_ok F m B inp /\ forall b s i, pixels m inp b s i = match m with InputSite _ | MergedOutput _ _ => px_of x b ind i | OutputSite _ => pixels m inp b s i | _ => px_of x b (ind + s) i end).
      { unfold inp. destruct m as [t ub bias|t|t|t|t lo]; cbn [in_ok mod_len wf_mod not_short pixels] in *.
        - destruct (Nat.eqb_spec (size 0 t) 1); [contradiction|]. split; [unfold sliceE; cbn [shp]; rewrite Hx; reflexivity|intros; reflexivity].
        - split; [exact Logic.I|reflexivity].
        - cbn [Nat.eqb]. split; [unfold selE; cbn [shp]; rewrite Hx; reflexivity|intros; reflexivity].
        - destruct (Nat.eqb_spec (2 * size 0 t) 1); [lia|]. split; [unfold sliceE; cbn [shp]; rewrite Hx; reflexivity|intros; reflexivity].
        - cbn [Nat.eqb]. split; [unfold selE; cbn [shp]; rewrite Hx; reflexivity|intros; reflexivity]. }
      destruct Iok as [Iok Hpx].
      destruct (mod_forward_ok D F O m inp B g Wm Iok Hg) as (a & Ea & Ta & Ma & Va).
      assert (Hout' : List.length (outs mods) <= 1).
      { unfold outs in *. cbn [filter] in Hout. destruct (is_output m); cbn in Hout; lia. }
      destruct (IH (ind + mod_len m) (Some B) Wms Nms Hout') as (l & El & Cl & Ml & Ll & Vl).
      { destruct mods; auto. }
      exists (a :: l). split; [|split; [|split; [|split]]].
      + cbn [mods_forward]. unfold mbind at 1. fold inp. rewrite Ea. unfold mbind. rewrite El. destruct mods; reflexivity.
      + unfold out_of, outs in *. cbn [filter] in *. destruct (is_output m) eqn:Eo.
        * cbn in Hout. assert (Ez : filter is_output mods = []) by (destruct (filter is_output mods); [reflexivity|cbn in Hout; lia]).
          rewrite Ez in Cl. eapply CT_out; eassumption.
        * eapply CT_plain; eassumption.
      + constructor; [split; [exact Ma|eexists; exact Ta]|exact Ml].
      + cbn. congruence.
      + intros b o i j Hb Ho Hi Hj. rewrite (product_cons K), (typed_ncols K _ _ _ _ _ Ta). cbn [sem_all].
        rewrite (chain_app K D) by exact Hi. rewrite cols_all by (eapply sem_cols; exact Wm).
        assert (Oa : o < osize (if is_output m then Some O else None) \/ is_output m = false).
        { destruct (is_output m) eqn:Eo; [left|right; reflexivity]. unfold out_of, outs in Ho. cbn [filter] in Ho. rewrite Eo in Ho. exact Ho. }
        assert (Sa : forall o', chain_eq K D (sem F m (pixels m inp b) o') (sem F m (fun s => px_of x b (ind + s)) o')).
        { intros o'. destruct m as [t ub bias|t|t|t|t lo]; try (eapply sem_ext; [exact Wm|]; intros s k Hk; rewrite Hpx; reflexivity).
          - apply chain_eq_refl.
          - cbn [sem chain_eq]. split; [reflexivity|]. split; [|exact Logic.I]. intros p q _ _. unfold site_matrix. f_equal. apply bsum_ext. intros k Hk. rewrite Hpx, Nat.add_0_r. reflexivity.
          - cbn [sem chain_eq]. split; [reflexivity|]. split; [|exact Logic.I]. intros p q _ _. apply bsum_ext. intros k Hk. rewrite Hpx, Nat.add_0_r. reflexivity. }
        apply mmul_ext; intros k Hk.
        * destruct Oa as [Oa|Eo].
          -- rewrite Va by assumption. apply (chain_eq_chain K D); [apply Sa|exact Hi].
          -- rewrite Eo in *. rewrite (meaning_none K _ _ _ _ b o Ta). rewrite Va by (assumption || (cbn; lia)).
             transitivity (chain (sem F m (fun s => px_of x b (ind + s)) 0) i k); [apply (chain_eq_chain K D); [apply Sa|exact Hi]|].
             destruct m; try discriminate Eo; reflexivity.
        * unfold out_of, outs in Ho, Vl, Cl. cbn [filter] in Ho. destruct (is_output m) eqn:Eo.
          -- cbn in Hout. unfold outs in Hout. cbn [filter] in Hout. rewrite Eo in Hout. assert (Ez : filter is_output mods = []) by (destruct (filter is_output mods); [reflexivity|cbn in Hout; lia]).
             rewrite Ez in Vl, Cl. rewrite (product_none K _ _ _ _ b o Cl). rewrite Vl by (assumption || (cbn; lia)).
             f_equal. clear -Ez. revert Ez. generalize (ind + mod_len m) as z. induction mods as [|m' mods IHm]; intros z Ez; [reflexivity|].
             cbn [filter] in Ez. destruct (is_output m') eqn:E'; [discriminate|]. cbn [sem_all]. rewrite (IHm _ Ez). f_equal. destruct m'; try discriminate E'; reflexivity.
          -- apply Vl; assumption.
  Qed.

  (** *** the whole region *)
  Lemma end_left a B D out : typed a B D D out -> is_mid K a -> 0 < D ->
    end_vec K a "l"%char = Ok (mkT [D] (fun i => if nth 0 i 0 =? 0 then s1 else s0)).
  Proof.
    intros Ha Hm HD. unfold end_vec. inversion Ha; subst; unfold is_mid in Hm; cbn [a_bond] in Hm; try (exfalso; destruct Hm as [E|[E|E]]; discriminate E);
      cbn [a_bond chars list_ascii_of_string index_of Ascii.eqb Bool.eqb option_map a_ten]; unfold size; rewrite H; cbn [nth]; (destruct (Nat.eqb_spec D 0); [lia|reflexivity]).
  Qed.
  Lemma end_right a B D out : typed a B D D out -> is_mid K a -> 0 < D ->
    end_vec K a "r"%char = Ok (mkT [D] (fun i => if nth 0 i 0 =? 0 then s1 else s0)).
  Proof.
    intros Ha Hm HD. unfold end_vec. inversion Ha; subst; unfold is_mid in Hm; cbn [a_bond] in Hm; try (exfalso; destruct Hm as [E|[E|E]]; discriminate E);
      cbn [a_bond chars list_ascii_of_string index_of Ascii.eqb Bool.eqb option_map a_ten]; unfold size; rewrite H; cbn [nth]; (destruct (Nat.eqb_spec D 0); [lia|reflexivity]).
  Qed.
  Lemma edge_vec_short v B D (left : bool) : shp v = [D] ->
    exists w, edge_vec K v left (Some B) = (Ok (mkA KEdgeVec w (if left then "br" else "bl")%string), Some B) /\ shp w = [B; D] /\
      forall b i, b < B -> i < D -> get w [b; i] = get v [i].
  Proof.
    intros Hv. destruct (expand_batch v B 1 [D] Hv ltac:(lia)) as (w & Ew & Hw & Gw). exists w. split; [|split; [exact Hw|]].
    - unfold edge_vec, ndim. rewrite Hv. cbn [List.length Nat.eqb orb].
      apply (init_short _ v _ B [D]); [exact Hv|discriminate|reflexivity|exact Ew|destruct left; reflexivity|destruct left; reflexivity].
    - intros b i Hb Hi. apply Gw; [exact Hb|repeat constructor; exact Hi].
  Qed.
  Lemma chain_snoc B a : forall l r c c' out, chain_typed (S := K) B r l c out -> typed a B c c' None -> chain_typed B r (l ++ [a]) c' out.
  Proof.
    intros l r c c' out H Ha. induction H as [r|x l r m c out Hx H IH|x l r m c O Hx H IH]; cbn [app].
    - eapply CT_plain; [exact Ha|constructor].
    - eapply CT_plain; [exact Hx|auto].
    - eapply CT_out; [exact Hx|auto].
  Qed.
  Lemma ends_match {A X} (l : list A) a0 l0 l1 a1 (k : A -> A -> X) (d : X) : l = a0 :: l0 -> l = l1 ++ [a1] ->
    match l, rev l with a :: _, c :: _ => k a c | _, _ => d end = k a0 a1.
  Proof. intros E0 E1. assert (E : rev l = a1 :: rev l1) by (rewrite E1, rev_app_distr; reflexivity). subst l. rewrite E. reflexivity. Qed.
  Lemma contractable_atoms (l : list (atom K)) : contractable_list K (map Atom l) = Ok (CList (map Atom l)).
  Proof. unfold contractable_list. replace (forallb (is_contractable K) (map Atom l)) with true; [reflexivity|]. symmetry. apply forallb_forall. intros x Hx. apply in_map_iff in Hx as (a & <- & _). reflexivity. Qed.
  Lemma product_app (l l' : list (atom K)) b o i j B r m out : chain_typed B r l m out -> i < r ->
    product (l ++ l') b o i j = mmul m (product l b o) (product l' b o) i j.
  Proof.
    intros H Hi. unfold product. rewrite map_app, (chain_app K r) by exact Hi.
    assert (E : forall b o, cols K r (map (fun a => (ncols a, meaning a b o)) l) = m).
    { intros b' o'. clear Hi. induction H as [r|x l r m c out Hx H IH|x l r m c O Hx H IH].
      - reflexivity.
      - cbn [map]. rewrite cols_cons, (typed_ncols K _ _ _ _ _ Hx). exact IH.
      - cbn [map]. rewrite cols_cons, (typed_ncols K _ _ _ _ _ Hx). exact IH. }
    rewrite E. reflexivity.
  Qed.

  (** *** forward of a region with exactly one output *)
  Definition good_mods (D F O : nat) (mods : list (module K)) : Prop :=
    Forall (wf_mod D F O) mods /\ Forall not_short mods /\ List.length (outs mods) = 1.
  Definition ready (mods : list (module K)) (B : nat) (g : gbs) : Prop :=
    match mods with m :: _ => lone m = true -> g = Some B | [] => True end.
  Theorem region_open D F O mods par x B g : good_mods D F O mods -> 0 < D ->
    shp x = [B; region_len K mods; F] -> ready mods B g ->
    exists out, region_forward K mods false par x g = (Ok out, Some B) /\ shp out = [B; O] /\
      forall b o, b < B -> o < O -> get out [b; o] = chain (sem_all F mods 0 (px_of x b) o) 0 0.
  Proof.
    intros (Hw & Hs & Ho) HD Hx Hr.
    destruct (mods_forward_ok D F O mods x B _ Hx 0 g Hw Hs ltac:(lia) Hr) as (l & El & Cl & Ml & Ll & Vl).
    assert (Hne : mods <> []) by (intros ->; discriminate Ho).
    assert (Hoo : out_of O mods = Some O) by (unfold out_of; destruct (outs mods); [discriminate|reflexivity]).
    rewrite Hoo in Cl, Vl. cbn [osize] in Vl.
    assert (El' : mods_forward K mods 0 x g = (Ok l, Some B)) by (rewrite El; destruct mods; [contradiction|reflexivity]). clear El.
    destruct l as [|a0 l0] eqn:E0; [destruct mods; [contradiction|discriminate]|]. rewrite <- E0 in *.
    destruct (exists_last (l := l)) as (l1 & a1 & E1); [rewrite E0; discriminate|].
    assert (F0 : is_mid K a0 /\ exists o', typed a0 B D D o') by (rewrite E0 in Ml; apply (Forall_inv Ml)).
    assert (F1 : is_mid K a1 /\ exists o', typed a1 B D D o') by (rewrite E1 in Ml; apply Forall_app in Ml as [_ Ml]; apply (Forall_inv Ml)).
    destruct F0 as (M0 & o0 & T0). destruct F1 as (M1 & o1 & T1).
    set (v := mkT [D] (fun i => if nth 0 i 0 =? 0 then s1 else s0) : T).
    destruct (edge_vec_short v B D true eq_refl) as (e0 & Ee0 & He0 & Ge0).
    destruct (edge_vec_short v B D false eq_refl) as (e1 & Ee1 & He1 & Ge1).
    set (A0 := mkA KEdgeVec e0 "br") in *. set (A1 := mkA KEdgeVec e1 "bl") in *.
    assert (Ct : chain_typed B 1 (A0 :: l ++ [A1]) 1 (Some O)).
    { eapply CT_plain; [constructor; exact He0|]. eapply chain_snoc; [exact Cl|]. constructor; exact He1. }
    destruct (reduce_open K par B (Some O) A0 l A1) with (g := Some B) as (z & Ez & Tz & Bz & Mz).
    { reflexivity. }
    { apply Forall_forall. intros a Ha. rewrite Forall_forall in Ml. apply Ml; exact Ha. }
    { left; reflexivity. }
    { exact Ct. }
    assert (Sz : shp (a_ten z) = [B; O]) by (inversion Tz; subst; cbn [a_bond] in Bz; try discriminate Bz; assumption).
    exists (a_ten z). split; [|split; [exact Sz|]].
    - unfold region_forward, mbind, lift, ndim, size. rewrite Hx. cbn [List.length Nat.eqb nth assert_]. rewrite Nat.eqb_refl. cbn [assert_].
      rewrite El'. rewrite (ends_match l a0 l0 l1 a1 _ _ E0 E1).
      rewrite (end_left a0 B D o0 T0 M0 HD), (end_right a1 B D o1 T1 M1 HD). fold v. rewrite Ee0, Ee1. fold A0 A1.
      rewrite contractable_atoms. unfold mbind. rewrite Ez. reflexivity.
    - intros b o Hb Ho'. pose proof (Mz b o 0 0 Hb Ho' ltac:(lia) ltac:(lia)) as E.
      unfold meaning in E. rewrite Bz in E. cbn [String.eqb Ascii.eqb Bool.eqb andb] in E. rewrite E.
      rewrite (product_cons K). change (ncols A0) with (nth 1 (shp e0) 0). rewrite He0. cbn [nth].
      unfold mmul. transitivity (bsum D (fun k => if k =? 0 then product (l ++ [A1]) b o k 0 else s0)).
      + apply bsum_ext. intros k Hk. change (meaning A0 b o 0 k) with (get e0 [b; k]). rewrite Ge0 by assumption. cbn [get v nth].
        destruct (Nat.eqb_spec k 0) as [->|]; ring.
      + rewrite (bsum_delta K D 0 (fun k => product (l ++ [A1]) b o k 0)) by exact HD.
        rewrite (product_app l [A1] b o 0 0 B D D (Some O) Cl HD). unfold mmul.
        transitivity (bsum D (fun k => if k =? 0 then product l b o 0 k else s0)).
        * apply bsum_ext. intros k Hk. rewrite (product_one K) by (cbn; lia). change (meaning A1 b o k 0) with (get e1 [b; k]). rewrite Ge1 by assumption. cbn [get v nth].
          destruct (Nat.eqb_spec k 0) as [->|]; ring.
        * rewrite (bsum_delta K D 0 (fun k => product l b o 0 k)) by exact HD. apply Vl; assumption.
  Qed.
  Theorem region_ring D F O mods par x B g : good_mods D F O mods -> 2 <= List.length mods ->
    shp x = [B; region_len K mods; F] -> ready mods B g ->
    exists out, region_forward K mods true par x g = (Ok out, Some B) /\ shp out = [B; O] /\
      forall b o, b < B -> o < O -> get out [b; o] = mtrace D (chain (sem_all F mods 0 (px_of x b) o)).
  Proof.
    intros (Hw & Hs & Ho) Hlen Hx Hr.
    destruct (mods_forward_ok D F O mods x B _ Hx 0 g Hw Hs ltac:(lia) Hr) as (l & El & Cl & Ml & Ll & Vl).
    assert (Hne : mods <> []) by (intros ->; discriminate Ho).
    assert (Hoo : out_of O mods = Some O) by (unfold out_of; destruct (outs mods); [discriminate|reflexivity]).
    rewrite Hoo in Cl, Vl. cbn [osize] in Vl.
    assert (El' : mods_forward K mods 0 x g = (Ok l, Some B)) by (rewrite El; destruct mods; [contradiction|reflexivity]). clear El.
    destruct (reduce_mids K B D D (Some O) l) with (g := Some B) as (z & Ez & Tz & Bz & Mz).
    { lia. }
    { apply Forall_forall. intros a Ha. rewrite Forall_forall in Ml. apply Ml; exact Ha. }
    { exact Cl. }
    assert (Sz : shp (a_ten z) = [B; O; D; D]) by (inversion Tz; subst; cbn [a_bond] in Bz; try discriminate Bz; assumption).
    destruct (e_trace (a_ten z) B O D Sz) as (v & Ev & Hv & Gv).
    exists v. split; [|split; [exact Hv|]].
    - unfold region_forward, mbind, lift, ndim, size. rewrite Hx. cbn [List.length Nat.eqb nth assert_]. rewrite Nat.eqb_refl. cbn [assert_].
      rewrite El', contractable_atoms. rewrite Ez. unfold trace_lr. rewrite Bz. cbn [chars list_ascii_of_string].
      cbn [inb existsb Ascii.eqb Bool.eqb orb andb assert_ rbind].
      match goal with |- context [einsum ?st _] => change st with "boll->bo"%string end. rewrite Ev. reflexivity.
    - intros b o Hb Ho'. rewrite Gv by assumption. unfold mtrace. apply bsum_ext. intros k Hk.
      rewrite <- (Vl b o k k Hb Ho' Hk Hk). rewrite <- (Mz b o k k Hb Ho' Hk Hk). unfold meaning. rewrite Bz. reflexivity.
  Qed.
End P.
