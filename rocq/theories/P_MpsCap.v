(** * P_MpsCap: C112, which functions a trained MPS can compute. *)
From Coq Require Import Ring_theory Ring Reals Lra.
From Verif Require Import Base Scalars Tensor Spec LinAlg Contractables Utils TorchMps TmSpec TmProofs TmFinal P_Prob P_Mps P_Mps2 P_Mps3 P_Mps4 P_Gibbs P_Capacity.
Open Scope nat_scope.

(** ** Specification *)
Section CapSpec.
  Variable K : cring.
  (** the product of f 0, …, f (n - 1) *)
  Fixpoint prod_to (n : nat) (f : nat -> K) : K := match n with 0 => s1 | Datatypes.S n => smul (prod_to n f) (f n) end.
  (** a sum of D products of functions of single pixels: Σ_p y_p,o Π_s (Σ_i x_s,i c_p,s,i) *)
  Definition cp_value (N D F : nat) (y : nat -> nat -> K) (c : nat -> nat -> nat -> K) (x : nat -> vec K) (o : nat) : K :=
    bsum D (fun p => smul (y p o) (prod_to N (fun s => bsum F (fun i => smul (x s i) (c p s i))))).
  (** the one-hot pixels of a word *)
  Definition one_hot (w : list nat) (s i : nat) : K := if i =? nth s w 0 then s1 else s0.
  (** the one-sample batch that holds a word *)
  Definition hot_word (N F : nat) (w : list nat) : tensor K := mkT [1; N; F] (fun i => match i with [_; s; f] => one_hot w s f | _ => s0 end).
  (** one sample: pixels of u before position k, pixels of v from there on *)
  Definition joined (N F k : nat) (u v : nat -> vec K) : tensor K :=
    mkT [1; N; F] (fun i => match i with [_; s; f] => if s <? k then u s f else v s f | _ => s0 end).
End CapSpec.
Arguments prod_to {K}. Arguments cp_value {K}. Arguments one_hot {K}. Arguments joined {K}. Arguments hot_word {K}.

(** ** Diagonal chains with open or joined ends *)
Section Pos.
  Variable K : cring.
  Add Ring KrMc : (rth K).
  Definition pick (per : bool) (N j l r : nat) : option nat :=
    if per then if l =? r then Some l else None
    else if j =? 0 then if l =? 0 then Some r else None
    else if j =? N then if r =? 0 then Some l else None
    else if l =? r then Some l else None.
  Definition posmat (per : bool) (N j : nat) (a : nat -> K) : mat K := fun l r => match pick per N j l r with Some p => a p | None => s0 end.
  Fixpoint lprod (js : list nat) (a : nat -> K) : K := match js with [] => s1 | j :: js => smul (a j) (lprod js a) end.
  Lemma lprod_app xs ys a : lprod (xs ++ ys) a = smul (lprod xs a) (lprod ys a).
  Proof. induction xs as [|x xs IH]; cbn [app lprod]; [ring|]. rewrite IH. ring. Qed.
  Lemma lprod_seq n a : lprod (seq 0 n) a = prod_to n a.
  Proof. induction n as [|n IH]; [reflexivity|]. rewrite seq_S, lprod_app, IH. cbn [lprod prod_to Nat.add]. ring. Qed.
  Lemma lprod_ext js a b : (forall j, In j js -> a j = b j) -> lprod js a = lprod js b.
  Proof. induction js as [|j js IH]; intros H; [reflexivity|]. cbn [lprod]. rewrite (H j) by (left; reflexivity). rewrite IH; [reflexivity|]. intros i Hi. apply H. right. exact Hi. Qed.
  Lemma lprod_map (f : nat -> nat) js a : lprod (map f js) a = lprod js (fun j => a (f j)).
  Proof. induction js as [|j js IH]; [reflexivity|]. cbn [map lprod]. rewrite IH. reflexivity. Qed.
  Lemma prod_to_zero n f s : s < n -> f s = s0 -> prod_to n f = s0 (s := K).
  Proof. intros Hs E. induction n as [|n IH]; [lia|]. cbn [prod_to]. destruct (Nat.eq_dec s n) as [->|Hne]; [rewrite E; ring|]. rewrite IH by lia. ring. Qed.
  Lemma prod_to_one n f : (forall s, s < n -> f s = s1) -> prod_to n f = s1 (s := K).
  Proof. intros H. induction n as [|n IH]; [reflexivity|]. cbn [prod_to]. rewrite H by lia. rewrite IH by (intros; apply H; lia). ring. Qed.

  Lemma diag_step D (g : nat -> K) (M R : mat K) p q : p < D -> (forall r, r < D -> M p r = if r =? p then g p else s0) -> mmul D M R p q = smul (g p) (R p q).
  Proof.
    intros Hp HM. unfold mmul. refine (eq_trans _ (bsum_delta K D p (fun r => smul (g r) (R r q)) Hp)).
    apply bsum_ext. intros r Hr. rewrite (HM r Hr). destruct (r =? p) eqn:E; [|ring]. apply Nat.eqb_eq in E. subst r. reflexivity.
  Qed.
  Lemma open_tail D N (a : nat -> nat -> K) : 0 < D -> forall k s p, 0 < s -> 0 < k -> s + k = Datatypes.S N -> p < D ->
    chain (map (fun j => (D, posmat false N j (a j))) (seq s k)) p 0 = lprod (seq s k) (fun j => a j p).
  Proof.
    intros HD. induction k as [|k IH]; intros s p Hs Hk E Hp; [lia|]. cbn [seq map lprod]. destruct k as [|k].
    - cbn [seq map lprod]. rewrite (chain_single K) by exact HD. unfold posmat, pick. replace (s =? 0) with false by (symmetry; apply Nat.eqb_neq; lia).
      replace (s =? N) with true by (symmetry; apply Nat.eqb_eq; lia). cbn [Nat.eqb]. ring.
    - rewrite (chain_cons K). rewrite (diag_step D (a s)); [|exact Hp|].
      + rewrite (IH (Datatypes.S s) p) by lia. reflexivity.
      + intros r Hr. unfold posmat, pick. replace (s =? 0) with false by (symmetry; apply Nat.eqb_neq; lia). replace (s =? N) with false by (symmetry; apply Nat.eqb_neq; lia).
        rewrite Nat.eqb_sym. destruct (r =? p); reflexivity.
  Qed.
  Lemma open_chain D N (a : nat -> nat -> K) : 0 < D -> 0 < N ->
    chain (map (fun j => (D, posmat false N j (a j))) (seq 0 (Datatypes.S N))) 0 0 = bsum D (fun p => lprod (seq 0 (Datatypes.S N)) (fun j => a j p)).
  Proof.
    intros HD HN. cbn [seq map lprod]. rewrite (chain_cons K). unfold mmul. apply bsum_ext. intros p Hp.
    rewrite (open_tail D N a HD N 1 p) by lia. reflexivity.
  Qed.
  Lemma ring_diag D N (a : nat -> nat -> K) js : forall p q, p < D ->
    chain (map (fun j => (D, posmat true N j (a j))) js) p q = if p =? q then lprod js (fun j => a j p) else s0.
  Proof.
    induction js as [|j js IH]; intros p q Hp; cbn [map lprod].
    - cbn [chain]. unfold delta. reflexivity.
    - rewrite (chain_cons K), (diag_step D (a j)); [|exact Hp|].
      + rewrite (IH p q Hp). destruct (p =? q); ring.
      + intros r Hr. unfold posmat, pick. rewrite Nat.eqb_sym. destruct (r =? p); reflexivity.
  Qed.
  (** both boundary conditions *)
  Lemma pos_value (per : bool) D N (a : nat -> nat -> K) : 0 < D -> 0 < N ->
    (let fs := map (fun j => (D, posmat per N j (a j))) (seq 0 (Datatypes.S N)) in if per then mtrace D (chain fs) else chain fs 0 0)
    = bsum D (fun p => lprod (seq 0 (Datatypes.S N)) (fun j => a j p)).
  Proof.
    intros HD HN. destruct per; cbv zeta; [|apply open_chain; assumption].
    unfold mtrace. apply bsum_ext. intros p Hp. rewrite (ring_diag D N a _ p p Hp), Nat.eqb_refl. reflexivity.
  Qed.
End Pos.

(** ** Parameters that compute a given sum of products *)
Section Build.
  Variable K : cring.
  Add Ring KrMc2 : (rth K).
  Variables (per : bool) (N lab D F : nat) (y : nat -> nat -> K) (c : nat -> nat -> nat -> K).
  Hypotheses (HN : 0 < N) (HD : 0 < D) (Hle : lab <= N).
  (** factor j: a pixel (the pixels from label_site on come one position later) or the output core *)
  Definition place (s : nat) : nat := if s <? lab then s else Datatypes.S s.
  Definition cp_core (s l r i : nat) : K := posmat K per N (place s) (fun p => c p s i) l r.
  Definition cp_out (o l r : nat) : K := posmat K per N lab (fun p => y p o) l r.
  Definition set_mod (st : nat) (m : module K) : module K :=
    match m with
    | InputRegion t ub b => InputRegion (mkT (shp t) (fun i => match i with [s; l; r; f] => cp_core (st + s) l r f | _ => s0 end)) ub (option_map (fun b => mkT (shp b) (fun _ => s0)) b)
    | OutputSite t => OutputSite (mkT (shp t) (fun i => match i with [o; l; r] => cp_out o l r | _ => s0 end))
    | m => m
    end.
  Definition good_weights (w : weights K) : Prop :=
    (forall s l r i, s < N -> w_core w s l r i = cp_core s l r i) /\ (forall s l r, s < N -> w_bias w s l r = s0) /\ (forall o l r, w_out w o l r = cp_out o l r).
  Lemma good_value w x o : good_weights w -> value K per N lab D F w x o = cp_value N D F y c x o.
  Proof.
    intros (Hc & Hb & Ho).
    set (e := fun s p => bsum F (fun i => smul (x s i) (c p s i))).
    set (a := fun j p => if j <? lab then e j p else if j =? lab then y p o else e (j - 1) p).
    assert (Hs : forall s, s < N -> forall l r, site_matrix F (w_core w s) (w_bias w s) (x s) l r = posmat K per N (place s) (e s) l r).
    { intros s Hs l r. unfold site_matrix. rewrite (Hb s l r Hs).
      rewrite (bsum_ext F _ (fun i => smul (x s i) (cp_core s l r i))) by (intros i Hi; rewrite (Hc s l r i Hs); reflexivity).
      unfold cp_core, posmat, e. destruct (pick per N (place s) l r) as [p|]; [ring|]. rewrite (bsum_zero K); [ring|]. intros; ring. }
    assert (Hf : same_fac K (factors N lab D F w x o) (map (fun j => (D, posmat K per N j (a j))) (seq 0 (Datatypes.S N)))).
    { replace (Datatypes.S N) with (lab + (1 + (N - lab))) by lia. rewrite !seq_app, !map_app. unfold factors. cbn [Nat.add seq].
      apply Forall2_app; [|apply Forall2_app].
      - assert (G : forall js, (forall j, In j js -> j < lab) -> same_fac K (map (fun s => (D, site_matrix F (w_core w s) (w_bias w s) (x s))) js) (map (fun j => (D, posmat K per N j (a j))) js)).
        { induction js as [|j js IH]; intros H; [constructor|]. constructor; [|apply IH; intros; apply H; right; assumption].
          split; [reflexivity|]. intros l r. cbn [snd]. assert (Hj : j < lab) by (apply H; left; reflexivity). rewrite Hs by lia.
          unfold place, a. replace (j <? lab) with true by (symmetry; apply Nat.ltb_lt; exact Hj). reflexivity. }
        apply G. intros j Hj. apply in_seq in Hj. lia.
      - constructor; [|constructor]. split; [reflexivity|]. intros l r. cbn [snd]. rewrite Ho. unfold cp_out, posmat, a. rewrite Nat.ltb_irrefl, Nat.eqb_refl. reflexivity.
      - replace (lab + 1) with (Datatypes.S lab) by lia. rewrite <- seq_shift, map_map.
        assert (G : forall js, (forall j, In j js -> lab <= j < N) -> same_fac K (map (fun s => (D, site_matrix F (w_core w s) (w_bias w s) (x s))) js) (map (fun j => (D, posmat K per N (Datatypes.S j) (a (Datatypes.S j)))) js)).
        { induction js as [|j js IH]; intros H; [constructor|]. constructor; [|apply IH; intros; apply H; right; assumption].
          split; [reflexivity|]. intros l r. cbn [snd]. assert (Hj : lab <= j < N) by (apply H; left; reflexivity). rewrite Hs by lia.
          unfold place, a. replace (j <? lab) with false by (symmetry; apply Nat.ltb_ge; lia). replace (Datatypes.S j <? lab) with false by (symmetry; apply Nat.ltb_ge; lia).
          replace (Datatypes.S j =? lab) with false by (symmetry; apply Nat.eqb_neq; lia). replace (Datatypes.S j - 1) with j by lia. reflexivity. }
        apply G. intros j Hj. apply in_seq in Hj. lia. }
    assert (Ec : forall i j, chain (factors N lab D F w x o) i j = chain (map (fun j => (D, posmat K per N j (a j))) (seq 0 (Datatypes.S N))) i j) by (apply (same_fac_chain K), Hf).
    transitivity (bsum D (fun p => lprod K (seq 0 (Datatypes.S N)) (fun j => a j p))).
    - rewrite <- (pos_value K per D N a HD HN). cbv zeta. unfold value, ring_value, train_value. destruct per; [|apply Ec]. unfold mtrace. apply bsum_ext. intros k _. apply Ec.
    - unfold cp_value. apply bsum_ext. intros p Hp.
      replace (Datatypes.S N) with (lab + (1 + (N - lab))) by lia. rewrite !seq_app, !(lprod_app K). cbn [Nat.add seq].
      replace (lab + 1) with (Datatypes.S lab) by lia. rewrite <- seq_shift, (lprod_map K).
      rewrite (lprod_ext K (seq 0 lab) _ (fun s => e s p)).
      2:{ intros j Hj. apply in_seq in Hj. unfold a. replace (j <? lab) with true by (symmetry; apply Nat.ltb_lt; lia). reflexivity. }
      rewrite (lprod_ext K (seq lab (N - lab)) _ (fun s => e s p)).
      2:{ intros j Hj. apply in_seq in Hj. unfold a. replace (Datatypes.S j <? lab) with false by (symmetry; apply Nat.ltb_ge; lia).
          replace (Datatypes.S j =? lab) with false by (symmetry; apply Nat.eqb_neq; lia). replace (Datatypes.S j - 1) with j by lia. reflexivity. }
      cbn [lprod]. unfold a at 1. rewrite Nat.ltb_irrefl, Nat.eqb_refl.
      change (fun s => bsum F (fun i => smul (x s i) (c p s i))) with (fun s => e s p).
      rewrite <- (lprod_seq K N). assert (Es : seq 0 N = seq 0 lab ++ seq lab (N - lab)) by (pose proof (seq_app lab (N - lab) 0) as Es; replace (lab + (N - lab)) with N in Es by lia; exact Es).
      rewrite Es.
      rewrite (lprod_app K). ring.
  Qed.
  Lemma set_trained n ub st l : region_list K n D F ub l -> Forall2 mod_trained l (map (set_mod st) l).
  Proof.
    destruct n as [|n]; cbn [region_list]; [intros ->; constructor|]. intros (m & -> & t & b & -> & _). constructor; [|constructor].
    destruct b; constructor; reflexivity.
  Qed.
  Lemma set_bias st n ub m l r : region_shape K n D F ub m -> mod_bias (set_mod st m) l r = s0.
  Proof. intros (t & b & -> & _). cbn [set_mod]. destruct ub, b; reflexivity. Qed.
  Lemma set_core st n ub m s l r i : region_shape K n D F ub m -> get (mod_tensor (set_mod st m)) [s; l; r; i] = cp_core (st + s) l r i.
  Proof. intros (t & b & -> & _). reflexivity. Qed.
  Lemma good_state ub m0 : m_label m0 = lab -> mps_form K N (m_output m0) D F lab ub (m_modules m0) -> exists m, trained m0 m /\ good_weights (weights_of m).
  Proof.
    intros Hlab (l & t & r & Em & Hl & Ht & Hr).
    set (mods := map (set_mod 0) l ++ [set_mod 0 (OutputSite t)] ++ map (set_mod lab) r).
    exists (mkMps K (m_input m0) (m_output m0) (m_bond m0) (m_feature m0) (m_periodic m0) (m_parallel m0) (m_label m0) (m_path m0) (m_use_bias m0) mods (m_fmap m0)). split.
    - split; [|reflexivity]. cbn [m_modules]. rewrite Em. unfold mods. apply Forall2_app; [apply (set_trained lab ub); exact Hl|].
      apply Forall2_app; [|apply (set_trained (N - lab) ub); exact Hr]. constructor; [constructor; reflexivity|constructor].
    - unfold good_weights, weights_of, first_mod, last_mod, out_mod. cbn [w_core w_bias w_out m_label m_modules]. rewrite Hlab.
      assert (Hfirst : 0 < lab -> exists m, region_shape K lab D F ub m /\ l = [m]).
      { intros H. destruct lab as [|n]; [lia|]. destruct Hl as (m & -> & Hm). eauto. }
      assert (Hlast : 0 < N - lab -> exists m, region_shape K (N - lab) D F ub m /\ r = [m]).
      { intros H. destruct (N - lab) as [|n]; [lia|]. destruct Hr as (m & -> & Hm). eauto. }
      assert (Hout : nth (if 0 <? lab then 1 else 0) mods (OutputSite (no_tensor K)) = set_mod 0 (OutputSite t)).
      { unfold mods. destruct (Nat.ltb_spec 0 lab) as [H|H].
        - destruct (Hfirst H) as (m & _ & ->). reflexivity.
        - assert (lab = 0) as E0 by lia. rewrite E0 in Hl. cbn [region_list] in Hl. rewrite Hl. reflexivity. }
      assert (Hf : 0 < lab -> exists m, region_shape K lab D F ub m /\ nth 0 mods (OutputSite (no_tensor K)) = set_mod 0 m).
      { intros H. destruct (Hfirst H) as (m & Hm & E). exists m. split; [exact Hm|]. unfold mods. rewrite E. reflexivity. }
      assert (Hlst : 0 < N - lab -> exists m, region_shape K (N - lab) D F ub m /\ last mods (OutputSite (no_tensor K)) = set_mod lab m).
      { intros H. destruct (Hlast H) as (m & Hm & E). exists m. split; [exact Hm|]. unfold mods. rewrite E, app_assoc. apply last_last. }
      split; [|split].
      + intros s l' r' i Hs. destruct (Nat.ltb_spec s lab) as [H|H].
        * destruct (Hf ltac:(lia)) as (m & Hm & ->). rewrite (set_core 0 _ _ _ _ _ _ _ Hm). reflexivity.
        * destruct (Hlst ltac:(lia)) as (m & Hm & ->). rewrite (set_core lab _ _ _ _ _ _ _ Hm). replace (lab + (s - lab)) with s by lia. reflexivity.
      + intros s l' r' Hs. destruct (Nat.ltb_spec s lab) as [H|H].
        * destruct (Hf ltac:(lia)) as (m & Hm & ->). apply (set_bias 0 _ _ _ _ _ Hm).
        * destruct (Hlst ltac:(lia)) as (m & Hm & ->). apply (set_bias lab _ _ _ _ _ Hm).
      + intros o l' r'. rewrite Hout. reflexivity.
  Qed.
End Build.

(** ** C112 *)
Section Cap.
  Variable K : cring.
  Add Ring KrMc3 : (rth K).
  Lemma init_trained N O D F per par label path std ub rnd m0 : mps_init K N O D F per par label path std ub rnd = Ok m0 -> trained m0 m0.
  Proof.
    unfold mps_init, label_of. set (l := match label with None => _ | Some z => z end). intros E.
    destruct ((0 <=? l)%Z && (l <=? Z.of_nat N)%Z) eqn:El; cbn [assert_ rbind] in E; [|discriminate].
    destruct (build_modules K false N O D F (Z.to_nat l) std ub rnd) as [mods|] eqn:Eb; cbn [rbind] in E; [|discriminate].
    destruct (region_len K mods =? N); cbn [assert_ rbind] in E; [|discriminate].
    destruct (check_path N path) as [[]|]; cbn [rbind] in E; [|discriminate]. injection E as <-.
    split; [|reflexivity]. cbn [m_modules]. pose proof (build_form K _ _ _ _ _ _ _ _ _ _ Eb) as (a & t & r & -> & Ha & _ & Hr).
    assert (R : forall n q, region_list K n D F ub q -> Forall2 mod_trained q q).
    { intros n q. destruct n; cbn [region_list]; [intros ->; constructor|]. intros (m & -> & t' & b & -> & _). constructor; [|constructor].
      destruct b; constructor; reflexivity. }
    apply Forall2_app; [eapply R; exact Ha|]. apply Forall2_app; [|eapply R; exact Hr]. constructor; [constructor; reflexivity|constructor].
  Qed.
  (** *** every sum of at most bond_dim products of functions of single pixels is computed by some trained state of the model,
      with either boundary condition, either evaluation order and any label site that works *)
  Theorem C112_cp (N O D F : nat) (per par : bool) (label : option Z) (path : mpath) (std : K) (ub : bool) (rnd : nat -> list nat -> K) (m0 : mps K)
      (y : nat -> nat -> K) (c : nat -> nat -> nat -> K) :
    mps_init K N O D F per par label path std ub rnd = Ok m0 -> no_path path -> 0 < N -> 0 < D -> good_label N (m_label m0) ->
    exists m, trained m0 m /\
      forall (x : tensor K) (B : nat) (g : option nat), shp x = [B; N; F] -> 0 < m_label m0 \/ g = Some B ->
        exists out, mps_forward K m x g = (Ok out, Some B) /\ shp out = [B; O] /\
          forall b o, b < B -> o < O -> get out [b; o] = cp_value N D F y c (fun s i => get x [b; s; i]) o.
  Proof.
    intros Hi Hp HN HD Hg. pose proof (init_trained _ _ _ _ _ _ _ _ _ _ _ _ Hi) as Ht0.
    destruct (init_built K _ _ _ _ _ _ _ _ _ _ _ _ _ Hi Ht0) as [_ Eo _ _ _ _ El Hle _ Hf].
    rewrite <- El in Hf, Hle. rewrite <- Eo in Hf.
    destruct (good_state K per N (m_label m0) D F y c HN HD Hle ub m0 eq_refl Hf) as (m & Ht & Hw).
    exists m. split; [exact Ht|]. intros x B g Hx Hgb.
    assert (Elm : m_label m = m_label m0) by (rewrite (proj2 Ht); reflexivity).
    destruct per.
    - destruct (C31_periodic_boundary_returns K N O D F par label path std ub rnd m0 m x B g Hi Ht Hp ltac:(lia)) as (out & E & Hs & G); [rewrite Elm; exact Hg|rewrite Elm; exact Hgb|exact Hx|].
      exists out. split; [exact E|]. split; [exact Hs|]. intros b o Hb Ho. rewrite (G b o Hb Ho). rewrite Elm. exact (good_value K true N (m_label m0) D F y c HN HD Hle (weights_of m) (fun s i => get x [b; s; i]) o Hw).
    - destruct (C30_open_boundary_returns K N O D F par label path std ub rnd m0 m x B g Hi Ht Hp HD) as (out & E & Hs & G); [rewrite Elm; exact Hg|rewrite Elm; exact Hgb|exact Hx|].
      exists out. split; [exact E|]. split; [exact Hs|]. intros b o Hb Ho. rewrite (G b o Hb Ho). rewrite Elm. exact (good_value K false N (m_label m0) D F y c HN HD Hle (weights_of m) (fun s i => get x [b; s; i]) o Hw).
  Qed.
  (** *** memorising: with bond_dim at least the number of words, some trained state answers any given values on any list of
      distinct one-hot words, and zeros on every other word *)
  Theorem C112_memorise (N O D F : nat) (per par : bool) (label : option Z) (path : mpath) (std : K) (ub : bool) (rnd : nat -> list nat -> K) (m0 : mps K)
      (L : list (list nat)) (answer : list nat -> nat -> K) :
    mps_init K N O D F per par label path std ub rnd = Ok m0 -> no_path path -> 0 < N -> good_label N (m_label m0) ->
    NoDup L -> 0 < List.length L <= D -> (forall w, In w L -> List.length w = N) ->
    exists m, trained m0 m /\
      forall (x : tensor K) (B : nat) (g : option nat) (word : nat -> list nat), shp x = [B; N; F] -> 0 < m_label m0 \/ g = Some B ->
        (forall b, b < B -> List.length (word b) = N /\ (forall k, In k (word b) -> k < F) /\
                            forall s i, s < N -> i < F -> get x [b; s; i] = one_hot (word b) s i) ->
        exists out, mps_forward K m x g = (Ok out, Some B) /\ shp out = [B; O] /\
          forall b o, b < B -> o < O -> get out [b; o] = if in_dec weq (word b) L then answer (word b) o else s0.
  Proof.
    intros Hi Hp HN Hg HND HL Hlen.
    set (y := fun p o => if p <? List.length L then answer (nth p L []) o else s0).
    set (c := fun p s i => if nth s (nth p L []) 0 =? i then s1 else s0 (s := K)).
    destruct (C112_cp N O D F per par label path std ub rnd m0 y c Hi Hp HN ltac:(lia) Hg) as (m & Ht & H).
    exists m. split; [exact Ht|]. intros x B g word Hx Hgb Hw.
    destruct (H x B g Hx Hgb) as (out & E & Hs & G). exists out. split; [exact E|]. split; [exact Hs|]. intros b o Hb Ho. rewrite (G b o Hb Ho).
    destruct (Hw b Hb) as (Hwl & Hwk & Hwx). set (w := word b) in *. unfold cp_value.
    assert (Ep : forall p, p < List.length L -> prod_to N (fun s => bsum F (fun i => smul (get x [b; s; i]) (c p s i))) = if weq (nth p L []) w then s1 else s0).
    { intros p Hpl. assert (Elp : List.length (nth p L []) = N) by (apply Hlen, nth_In, Hpl).
      assert (Es : forall s, s < N -> bsum F (fun i => smul (get x [b; s; i]) (c p s i)) = if nth s (nth p L []) 0 =? nth s w 0 then s1 else s0).
      { intros s Hs'. assert (Hk : nth s w 0 < F) by (apply Hwk, nth_In; lia).
        refine (eq_trans _ (bsum_delta K F (nth s w 0) (fun i => if nth s (nth p L []) 0 =? i then s1 else s0) Hk)).
        apply bsum_ext. intros i Hi'. rewrite (Hwx s i Hs' Hi'). unfold one_hot, c. destruct (i =? nth s w 0); destruct (nth s (nth p L []) 0 =? i); ring. }
      destruct (weq (nth p L []) w) as [Ew|Nw].
      - apply (prod_to_one K). intros s Hs'. rewrite (Es s Hs'), Ew, Nat.eqb_refl. reflexivity.
      - destruct (Nat.eq_dec 0 0) as [_|]; [|lia].
        assert (Hex : exists s, s < N /\ nth s (nth p L []) 0 <> nth s w 0).
        { assert (Gd : forall a q : list nat, List.length a = List.length q -> a <> q -> exists s, s < List.length a /\ nth s a 0 <> nth s q 0).
          { clear. induction a as [|z a IH]; intros [|z' q] Hl Hn; cbn [List.length] in Hl; try lia; [exfalso; apply Hn; reflexivity|].
            destruct (Nat.eq_dec z z') as [->|Hz]; [|exists 0; split; [cbn; lia|exact Hz]].
            destruct (IH q ltac:(lia) ltac:(intros ->; apply Hn; reflexivity)) as (s & Hs & Hd). exists (Datatypes.S s). split; [cbn [List.length]; lia|exact Hd]. }
          destruct (Gd (nth p L []) w ltac:(lia) Nw) as (s & Hs' & Hd). exists s. split; [lia|exact Hd]. }
        destruct Hex as (s & Hs' & Hd). apply (prod_to_zero K _ _ s Hs'). rewrite (Es s Hs'). replace (nth s (nth p L []) 0 =? nth s w 0) with false by (symmetry; apply Nat.eqb_neq; exact Hd). reflexivity. }
    destruct (in_dec weq w L) as [Hin|Hin].
    - destruct (In_nth L w [] Hin) as (p & Hpl & Ew). refine (eq_trans _ (bsum_delta K D p (fun _ => answer w o) ltac:(lia))).
      apply bsum_ext. intros q Hq. unfold y. destruct (Nat.ltb_spec q (List.length L)) as [Hql|Hql].
      + rewrite (Ep q Hql). destruct (weq (nth q L []) w) as [E'|N']; destruct (q =? p) eqn:Eq; try ring.
        * rewrite E'. ring.
        * apply Nat.eqb_neq in Eq. exfalso. apply Eq. apply (NoDup_nth L []); [exact HND|exact Hql|exact Hpl|congruence].
        * apply Nat.eqb_eq in Eq. subst q. contradiction.
      + replace (q =? p) with false by (symmetry; apply Nat.eqb_neq; lia). ring.
    - apply (bsum_zero K). intros p Hpd. unfold y. destruct (Nat.ltb_spec p (List.length L)) as [Hpl|Hpl]; [|ring].
      rewrite (Ep p Hpl). destruct (weq (nth p L []) w) as [E'|N']; [|ring]. exfalso. apply Hin. rewrite <- E'. apply nth_In, Hpl.
  Qed.
End Cap.
Section Rank.
  Variable K : numfield.
  Add Ring KrMc4 : (rth K).
  Definition bond_width (per : bool) (D : nat) : nat := if per then D * D else D.
  Definition fac_of (N lab D F : nat) (w : weights K) (x : nat -> vec K) (o j : nat) : nat * mat K :=
    if j =? lab then (D, w_out w o) else let s := if j <? lab then j else j - 1 in (D, site_matrix F (w_core w s) (w_bias w s) (x s)).
  Lemma factors_split N lab D F w x o : lab <= N -> factors N lab D F w x o = map (fac_of N lab D F w x o) (seq 0 (Datatypes.S N)).
  Proof.
    intros Hle. replace (Datatypes.S N) with (lab + (1 + (N - lab))) by lia. rewrite !seq_app, !map_app. unfold factors. cbn [Nat.add seq map].
    f_equal; [|f_equal].
    - apply map_ext_in. intros j Hj. apply in_seq in Hj. unfold fac_of. replace (j =? lab) with false by (symmetry; apply Nat.eqb_neq; lia). replace (j <? lab) with true by (symmetry; apply Nat.ltb_lt; lia). reflexivity.
    - unfold fac_of. rewrite Nat.eqb_refl. reflexivity.
    - replace (lab + 1) with (Datatypes.S lab) by lia. rewrite <- seq_shift, map_map. apply map_ext_in. intros j Hj. apply in_seq in Hj. unfold fac_of.
      replace (Datatypes.S j =? lab) with false by (symmetry; apply Nat.eqb_neq; lia). replace (Datatypes.S j <? lab) with false by (symmetry; apply Nat.ltb_ge; lia). replace (Datatypes.S j - 1) with j by lia. reflexivity.
  Qed.
  (** the value of a joined sample is a product of a row that depends on the first part and a column that depends on the second *)
  Lemma joined_value (per : bool) N lab D F (w : weights K) o k (u v : nat -> vec K) : lab <= N -> 0 < D -> k <= N ->
    let cut := if k <=? lab then k else Datatypes.S k in
    let A := chain (map (fac_of N lab D F w u o) (seq 0 cut)) in
    let B := chain (map (fac_of N lab D F w v o) (seq cut (Datatypes.S N - cut))) in
    value K per N lab D F w (fun s i => get (joined N F k u v) [0; s; i]) o
    = bsum (bond_width per D) (fun q => if per then smul (A (q / D) (q mod D)) (B (q mod D) (q / D)) else smul (A 0 q) (B q 0)).
  Proof.
    intros Hle HD Hk cut A B.
    assert (Hcut : cut <= Datatypes.S N) by (unfold cut; destruct (k <=? lab); lia).
    assert (Ef : factors N lab D F w (fun s i => get (joined N F k u v) [0; s; i]) o
                 = map (fac_of N lab D F w u o) (seq 0 cut) ++ map (fac_of N lab D F w v o) (seq cut (Datatypes.S N - cut))).
    { rewrite (factors_split N lab D F w _ o Hle). assert (Es : seq 0 (Datatypes.S N) = seq 0 cut ++ seq cut (Datatypes.S N - cut)).
      { pose proof (seq_app cut (Datatypes.S N - cut) 0) as Es. replace (cut + (Datatypes.S N - cut)) with (Datatypes.S N) in Es by lia. exact Es. }
      rewrite Es, map_app. f_equal; apply map_ext_in; intros j Hj; apply in_seq in Hj; unfold fac_of; destruct (j =? lab) eqn:Ej; try reflexivity; apply Nat.eqb_neq in Ej; cbv zeta; unfold site_matrix, joined; cbn [get].
      - replace ((if j <? lab then j else j - 1) <? k) with true; [reflexivity|]. symmetry. apply Nat.ltb_lt. unfold cut in Hj. destruct (Nat.ltb_spec j lab); destruct (Nat.leb_spec k lab); lia.
      - replace ((if j <? lab then j else j - 1) <? k) with false; [reflexivity|]. symmetry. apply Nat.ltb_ge. unfold cut in Hj. destruct (Nat.ltb_spec j lab); destruct (Nat.leb_spec k lab); lia. }
    assert (Ec : cols K D (map (fac_of N lab D F w u o) (seq 0 cut)) = D).
    { unfold cols. assert (G : forall l, fst (last (map (fac_of N lab D F w u o) l) (D, delta)) = D).
      { induction l as [|j l IH]; [reflexivity|]. destruct l as [|j' l]; [|exact IH]. cbn [map last]. unfold fac_of. destruct (j =? lab); reflexivity. }
      apply G. }
    assert (Ech : forall i j, i < D -> chain (factors N lab D F w (fun s i => get (joined N F k u v) [0; s; i]) o) i j = mmul D A B i j).
    { intros i j Hi. rewrite Ef, (chain_app K D _ _ i j Hi), Ec. reflexivity. }
    unfold value, ring_value, train_value, bond_width. destruct per.
    - unfold mtrace. rewrite (bsum_prod K). apply bsum_ext. intros i Hi. rewrite (Ech i i Hi). unfold mmul. apply bsum_ext. intros j Hj.
      assert (Ed : (i * D + j) / D = i) by (rewrite Nat.add_comm, Nat.div_add by lia; rewrite Nat.div_small by exact Hj; reflexivity).
      assert (Em : (i * D + j) mod D = j) by (rewrite Nat.add_comm, Nat.mod_add by lia; apply Nat.mod_small, Hj).
      rewrite Ed, Em. reflexivity.
    - rewrite (Ech 0 0 HD). reflexivity.
  Qed.
  Lemma sample_value N O D F (per par : bool) label path std ub rnd m0 m (x : tensor K) g o :
    mps_init K N O D F per par label path std ub rnd = Ok m0 -> trained m0 m -> no_path path -> 0 < N -> 0 < D -> good_label N (m_label m) ->
    0 < m_label m \/ g = Some 1 -> shp x = [1; N; F] -> o < O ->
    exists out, mps_forward K m x g = (Ok out, Some 1) /\ get out [0; o] = value K per N (m_label m) D F (weights_of m) (fun s f => get x [0; s; f]) o.
  Proof.
    intros Hi Ht Hp HN HD Hg Hgb Hx Ho. destruct per.
    - destruct (C31_periodic_boundary_returns K N O D F par label path std ub rnd m0 m x 1 g Hi Ht Hp ltac:(lia) Hg Hgb Hx) as (out & E & _ & G).
      exists out. split; [exact E|]. exact (G 0 o ltac:(lia) Ho).
    - destruct (C30_open_boundary_returns K N O D F par label path std ub rnd m0 m x 1 g Hi Ht Hp HD Hg Hgb Hx) as (out & E & _ & G).
      exists out. split; [exact E|]. exact (G 0 o ltac:(lia) Ho).
  Qed.
  (** *** across any cut the outputs of a channel form a matrix of rank at most bond_dim (its square for periodic boundaries): among
      that many + 1 first parts and second parts, if every matching pair has a nonzero output then so has some pair that does not match *)
  Theorem C112_rank (N O D F : nat) (per par : bool) (label : option Z) (path : mpath) (std : K) (ub : bool) (rnd : nat -> list nat -> K) (m0 m : mps K)
      (g : option nat) (k o : nat) (u v : nat -> nat -> vec K) :
    mps_init K N O D F per par label path std ub rnd = Ok m0 -> trained m0 m -> no_path path -> 0 < N -> 0 < D -> good_label N (m_label m) ->
    0 < m_label m \/ g = Some 1 -> k <= N -> o < O ->
    (forall i, i < Datatypes.S (bond_width per D) -> exists out g', mps_forward K m (joined N F k (u i) (v i)) g = (Ok out, g') /\ get out [0; o] <> s0) ->
    exists i j, i < Datatypes.S (bond_width per D) /\ j < Datatypes.S (bond_width per D) /\ i <> j /\
      exists out g', mps_forward K m (joined N F k (u i) (v j)) g = (Ok out, g') /\ get out [0; o] <> s0.
  Proof.
    intros Hi Ht Hp HN HD Hg Hgb Hk Ho Hd.
    destruct (init_built K _ _ _ _ _ _ _ _ _ _ _ _ _ Hi Ht) as [_ _ _ _ _ _ El Hle _ _]. rewrite <- El in Hle.
    assert (F1 : forall i j, exists out, mps_forward K m (joined N F k (u i) (v j)) g = (Ok out, Some 1) /\
       get out [0; o] = value K per N (m_label m) D F (weights_of m) (fun s f => get (joined N F k (u i) (v j)) [0; s; f]) o).
    { intros i j. apply (sample_value N O D F per par label path std ub rnd m0 m (joined N F k (u i) (v j)) g o Hi Ht Hp HN HD Hg Hgb eq_refl Ho). }
    set (lab := m_label m) in *. set (w := weights_of m) in *. set (cut := if k <=? lab then k else Datatypes.S k).
    set (A := fun i => chain (map (fac_of N lab D F w (u i) o) (seq 0 cut))).
    set (B := fun j => chain (map (fac_of N lab D F w (v j) o) (seq cut (Datatypes.S N - cut)))).
    set (L := fun i q => if per then A i (q / D) (q mod D) else A i 0 q).
    set (R0 := fun q j => if per then B j (q mod D) (q / D) else B j q 0).
    assert (E : forall i j, value K per N lab D F w (fun s f => get (joined N F k (u i) (v j)) [0; s; f]) o = bsum (bond_width per D) (fun q => smul (L i q) (R0 q j))).
    { intros i j. pose proof (joined_value per N lab D F w o k (u i) (v j) Hle HD Hk) as E. cbv zeta in E. fold cut in E. refine (eq_trans E _).
      apply bsum_ext. intros q Hq. unfold L, R0, A, B. destruct per; reflexivity. }
    destruct (no_wide_diagonal K (bond_width per D) L R0) as (i & j & Hi' & Hj & Hne & H).
    - intros i Hi'. destruct (Hd i Hi') as (out & g' & Eo & Hnz). destruct (F1 i i) as (out' & Eo' & G). rewrite Eo in Eo'. injection Eo' as -> _. rewrite G, E in Hnz. exact Hnz.
    - destruct (F1 i j) as (out & Eo & G). exists i, j. split; [exact Hi'|]. split; [exact Hj|]. split; [exact Hne|]. exists out, (Some 1). split; [exact Eo|]. rewrite G, E. exact H.
  Qed.
  (** so no trained state gives a nonzero output on exactly the constant words when there are more letters than bond_dim (its
      square for periodic boundaries) *)
  Theorem C112_tight (N O D F : nat) (per par : bool) (label : option Z) (path : mpath) (std : K) (ub : bool) (rnd : nat -> list nat -> K) (m0 m : mps K)
      (g : option nat) (o : nat) :
    mps_init K N O D F per par label path std ub rnd = Ok m0 -> trained m0 m -> no_path path -> 1 < N -> 0 < D -> good_label N (m_label m) ->
    0 < m_label m \/ g = Some 1 -> o < O -> bond_width per D < F ->
    ~ (forall w, In w (words F N) -> exists out g', mps_forward K m (hot_word N F w) g = (Ok out, g') /\ (get out [0; o] <> s0 <-> constant_word w)).
  Proof.
    intros Hi Ht Hp HN HD Hg Hgb Ho HF H.
    assert (Hin : forall i j, i < F -> j < F -> In (i :: repeat j (N - 1)) (words F N)).
    { intros i j Hi' Hj. apply in_words; [cbn [List.length]; rewrite repeat_length; lia|]. intros a [<-|Ha]; [exact Hi'|]. apply repeat_spec in Ha. subst a. exact Hj. }
    assert (Hcw : forall i j, constant_word (i :: repeat j (N - 1)) <-> i = j).
    { intros i j. split.
      - intros [a Ha]. rewrite (Ha i) by (left; reflexivity). symmetry. apply Ha. right. destruct (N - 1) as [|n'] eqn:E; [lia|]. left. reflexivity.
      - intros ->. exists j. intros a [<-|Ha]; [reflexivity|apply (repeat_spec _ _ _ Ha)]. }
    set (u := fun (i : nat) (s f : nat) => if f =? i then s1 else s0 (s := K)).
    destruct (init_built K _ _ _ _ _ _ _ _ _ _ _ _ _ Hi Ht) as [_ _ _ _ _ _ El Hle _ _]. rewrite <- El in Hle.
    assert (E : forall i j, value K per N (m_label m) D F (weights_of m) (fun s f => get (joined N F 1 (u i) (u j)) [0; s; f]) o
                      = value K per N (m_label m) D F (weights_of m) (fun s f => get (hot_word N F (i :: repeat j (N - 1))) [0; s; f]) o).
    { intros i j. apply (value_ext K); [exact Hle|]. intros s f Hs Hf. unfold joined, hot_word, one_hot, u. cbn [get]. destruct s as [|s]; [reflexivity|].
      cbn [Nat.ltb Nat.leb nth]. assert (Hr : nth s (repeat j (N - 1)) 0 = j) by (apply (repeat_spec (N - 1) j), nth_In; rewrite repeat_length; lia). rewrite Hr. reflexivity. }
    destruct (C112_rank N O D F per par label path std ub rnd m0 m g 1 o u u Hi Ht Hp ltac:(lia) HD Hg Hgb ltac:(lia) Ho) as (i & j & Hi' & Hj & Hne & out & g' & Eo & Hnz).
    - intros i Hi'. destruct (sample_value N O D F per par label path std ub rnd m0 m (joined N F 1 (u i) (u i)) g o Hi Ht Hp ltac:(lia) HD Hg Hgb eq_refl Ho) as (out & Eo & G).
      exists out, (Some 1). split; [exact Eo|]. rewrite G, E.
      destruct (H (i :: repeat i (N - 1)) (Hin i i ltac:(lia) ltac:(lia))) as (out' & g' & Eo' & Hiff).
      destruct (sample_value N O D F per par label path std ub rnd m0 m (hot_word N F (i :: repeat i (N - 1))) g o Hi Ht Hp ltac:(lia) HD Hg Hgb eq_refl Ho) as (out2 & E2 & G2).
      rewrite Eo' in E2. injection E2 as <- _. rewrite <- G2. apply Hiff, Hcw. reflexivity.
    - apply Hne, Hcw.
      destruct (H (i :: repeat j (N - 1)) (Hin i j ltac:(lia) ltac:(lia))) as (out' & g2 & Eo' & Hiff). apply Hiff.
      destruct (sample_value N O D F per par label path std ub rnd m0 m (hot_word N F (i :: repeat j (N - 1))) g o Hi Ht Hp ltac:(lia) HD Hg Hgb eq_refl Ho) as (out2 & E2 & G2).
      rewrite Eo' in E2. injection E2 as <- _. rewrite G2, <- E.
      destruct (sample_value N O D F per par label path std ub rnd m0 m (joined N F 1 (u i) (u j)) g o Hi Ht Hp ltac:(lia) HD Hg Hgb eq_refl Ho) as (out3 & E3 & G3).
      rewrite Eo in E3. injection E3 as <- _. rewrite <- G3. exact Hnz.
  Qed.
End Rank.
(** ** the hypotheses are met *)
Definition cap_mps : mps Z_cring := get_mps (mps_init Z_cring 4 2 2 2 false false None PNone (1%Z : Z_cring) true tick).
Example C112_met : mps_init Z_cring 4 2 2 2 false false None PNone (1%Z : Z_cring) true tick = Ok cap_mps /\ good_label 4 (m_label cap_mps) /\
  exists m, trained cap_mps m /\
    forall g, exists out, mps_forward Z_cring m (mkT [2; 4; 2] (fun i => match i with [b; s; f] => one_hot (nth b [[0; 1; 1; 0]; [1; 1; 0; 1]] []) s f | _ => s0 end)) g = (Ok out, Some 2) /\
      get out [0; 0] = 7%Z /\ get out [0; 1] = (-3)%Z /\ get out [1; 0] = 5%Z /\ get out [1; 1] = 11%Z.
Proof.
  destruct (C34_constructor Z_cring 4 2 2 2 false false None PNone (1%Z : Z_cring) true tick) as (m0 & Em & _ & El); [exact Logic.I|left; left; reflexivity|].
  assert (Ec : cap_mps = m0) by (unfold cap_mps; rewrite Em; reflexivity). rewrite Ec, El. change (label_site 4 None) with 2.
  split; [exact Em|]. split; [split; discriminate|].
  set (L := [[0; 1; 1; 0]; [1; 1; 0; 1]]).
  destruct (C112_memorise Z_cring 4 2 2 2 false false None PNone (1%Z : Z_cring) true tick m0 L
    (fun w o => match w, o with 0 :: _, 0 => 7%Z | 0 :: _, _ => (-3)%Z | _, 0 => 5%Z | _, _ => 11%Z end) Em (or_introl eq_refl) ltac:(lia)) as (m & Ht & H).
  - rewrite El. split; discriminate.
  - repeat constructor; cbn; intuition discriminate.
  - cbn. lia.
  - intros w [<-|[<-|[]]]; reflexivity.
  - exists m. split; [exact Ht|]. intros g.
    destruct (H (mkT [2; 4; 2] (fun i => match i with [b; s; f] => one_hot (nth b L []) s f | _ => s0 end)) 2 g (fun b => nth b L []) eq_refl) as (out & Eo & _ & G).
    + left. rewrite El. change (0 < 2). lia.
    + intros b Hb. destruct b as [|[|b]]; [| |lia]; (split; [reflexivity|]; split; [|reflexivity]); intros k Hk; cbn in Hk; lia.
    + exists out. split; [exact Eo|]. repeat split; (rewrite G by lia); reflexivity.
Qed.
(** more constant words than the bond dimension: the hypotheses of [C112_rank] and of [C112_tight] are met by a model of bond
    dimension 1 over three letters *)
Example C112_rank_met : exists m0, mps_init R_num 2 1 1 3 false false (Some 2%Z) PNone (1%R : R_num) false (fun _ _ => 0%R : R_num) = Ok m0 /\
  good_label 2 (m_label m0) /\ bond_width false 1 < 3 /\ exists m, trained m0 m /\
  forall i, i < 2 -> exists out g', mps_forward R_num m (joined (K := R_num) 2 3 1 (fun _ f => if f =? i then 1%R else 0%R) (fun _ f => if f =? i then 1%R else 0%R)) None = (Ok out, g') /\ get out [0; 0] <> s0.
Proof.
  destruct (C34_constructor R_num 2 1 1 3 false false (Some 2%Z) PNone (1%R : R_num) false (fun _ _ => 0%R : R_num)) as (m0 & Em & _ & El); [cbn; lia|left; left; reflexivity|].
  change (label_site 2 (Some 2%Z)) with 2 in El.
  assert (Hg : good_label 2 (m_label m0)) by (rewrite El; split; discriminate).
  exists m0. split; [exact Em|]. split; [exact Hg|]. split; [cbn; lia|].
  destruct (C112_cp R_num 2 1 1 3 false false (Some 2%Z) PNone (1%R : R_num) false (fun _ _ => 0%R : R_num) m0 (fun _ _ => 1%R : R_num) (fun _ _ _ => 1%R : R_num) Em (or_introl eq_refl) ltac:(lia) ltac:(lia) Hg) as (m & Ht & H).
  exists m. split; [exact Ht|]. intros i Hi.
  destruct (H (joined (K := R_num) 2 3 1 (fun _ f => if f =? i then 1%R else 0%R) (fun _ f => if f =? i then 1%R else 0%R)) 1 None eq_refl) as (out & Eo & _ & G); [left; rewrite El; lia|].
  exists out, (Some 1). split; [exact Eo|]. rewrite (G 0 0 ltac:(lia) ltac:(lia)).
  assert (E : forall a : R, a = 1%R -> a <> 0%R) by (intros a ->; exact R1_neq_R0). apply E.
  unfold cp_value, prod_to, joined. cbn [bsum get]. destruct i as [|[|i]]; [| |lia]; cbn; ring.
Qed.
Print Assumptions C112_cp.
Print Assumptions C112_memorise.
Print Assumptions C112_rank.
Print Assumptions C112_tight.
