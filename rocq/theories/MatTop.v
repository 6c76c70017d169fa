(** * MatTop: contract_matseq, top level. *)
From Coq Require Import Ring_theory Ring Reals Lra Permutation.
From Verif Require Import Base Scalars Tensor Utils2 MpsBase Spec MatSpec LinAlg Utils2Proofs MatseqProofs ParProofs.

Lemma bc_read_bproj s b : bc_read s b = bproj s b.
Proof. reflexivity. Qed.

Definition bout {A} (c : list nat) (nnb : nat) (t t' : tensor A) : Prop :=
  shp t' = c ++ lastn nnb (shp t) /\
  forall b r, valid c b -> valid (lastn nnb (shp t)) r ->
    get t' (b ++ r) = get t (bproj (droplast nnb (shp t)) b ++ r).

Lemma batch_out_bout {A} c n (t t' : tensor A) : n <= ndim t -> batch_out c n t t' -> bout c n t t'.
Proof.
  intros Hn [H1 H2]. split; [exact H1|]. intros b r Hb Hr. apply H2; [apply valid_length, Hb| |exact Hr].
  rewrite (valid_length _ _ Hr). apply lastn_length. exact Hn.
Qed.
Lemma is_broadcast_single s c : is_broadcast [s] c -> s = c.
Proof.
  intros (_ & Hle & (t & [<-|[]] & Hl) & Hax). apply axis_ext; [exact Hl|].
  intros k Hk. rewrite Hl in Hk. destruct (Hax k Hk) as [_ (t & [<-|[]] & E)]. exact E.
Qed.
Lemma is_broadcast_one s : is_broadcast [s] s.
Proof.
  split; [discriminate|]. split; [intros t [<-|[]]; lia|]. split; [exists s; simpl; auto|].
  intros k Hk. split; [intros t [<-|[]]; auto|exists s; simpl; auto].
Qed.
Lemma bout_refl {A} n (t : tensor A) : bout (droplast n (shp t)) n t t.
Proof.
  split; [symmetry; apply droplast_lastn|]. intros b r Hb Hr. rewrite bproj_self by exact Hb. reflexivity.
Qed.
Lemma batch_broadcast_any {A} (ts : list (tensor A)) nnb c :
  List.length ts = List.length nnb ->
  Forall2 (fun t n => n <= ndim t) ts nnb ->
  is_broadcast (batch_shapes ts nnb) c ->
  exists out, batch_broadcast ts nnb = Ok out /\
    Forall2 (fun p t' => bout c (snd p) (fst p) t') (combine ts nnb) out.
Proof.
  intros Hl Hf Hb. destruct (Nat.lt_ge_cases (List.length ts) 2) as [Hlt|Hge].
  - destruct ts as [|t [|t' ts]]; simpl in Hlt; try lia.
    + destruct nnb; [|discriminate]. destruct Hb as [Hb _]. elim Hb. reflexivity.
    + destruct nnb as [|n [|]]; try discriminate.
      unfold batch_broadcast. cbn [List.length Nat.eqb combine forallb fst snd assert_ rbind].
      inversion Hf as [|? ? ? ? Hn _]; subst.
      destruct (Nat.leb_spec n (ndim t)); [|lia]. cbn.
      exists [t]. split; [reflexivity|]. constructor; [|constructor]. cbn [fst snd].
      unfold batch_shapes in Hb. simpl in Hb. apply is_broadcast_single in Hb. subst c.
      apply bout_refl.
  - destruct (batch_broadcast_ok ts nnb c Hl Hf Hge Hb) as (out & E & H).
    exists out. split; [exact E|].
    assert (Hp : forall p, In p (combine ts nnb) -> snd p <= ndim (fst p)).
    { clear - Hf. induction Hf; intros p Hp; [destruct Hp|].
      simpl in Hp. destruct Hp as [<-|Hp]; [assumption|]. apply IHHf, Hp. }
    revert Hp. clear - H. induction H as [|p t' l out Hpt H IH]; intros Hp; constructor.
    + apply batch_out_bout; [apply Hp; left; reflexivity|exact Hpt].
    + apply IH. intros q Hq. apply Hp. right; exact Hq.
Qed.

Section Top.
  Variable K : numfield.
  Add Ring KrT : (rth K).
  Notation xt := (tensor (xnum K)).
  Notation xr := (tensor xreal).
  Notation XK := (xn_ops K).
  Notation matK := (mat K).
  Notation ofR := (nofR K).
  Notation rep := (rep K).
  Notation nonzero := (nonzero K).
  Notation tfinite := (tfinite K).

  (** matrices denoted by possibly non-finite tensors *)
  Definition xmats (m : tseq (xnum K)) (b : list nat) : list (nat * matK) :=
    match m with
    | TOne t => map (fun p => (dimE 0 (shp t),
                    fun i j => fval K (get t (bproj (droplast 3 (shp t)) b ++ [p; i; j]))))
                  (seq 0 (dimE 2 (shp t)))
    | TMany l => map (fun t => (dimE 0 (shp t),
                    fun i j => fval K (get t (bproj (droplast 2 (shp t)) b ++ [i; j])))) l
    end.
  Definition seq_finite (m : tseq (xnum K)) : Prop :=
    match m with TOne t => tfinite t | TMany l => Forall tfinite l end.

  Lemma compat_in {A} d (l : list (tensor A)) e t : compatible d l e -> In t l ->
    exists B m n, shp t = B ++ [m; n].
  Proof.
    induction 1 as [|B d n e t' ts Hs H IH]; intros Hin; [destruct Hin|].
    destruct Hin as [<-|Hin]; [exists B, d, n; exact Hs|apply IH, Hin].
  Qed.
  Lemma app2_inj (B B' : list nat) m n m' n' : B ++ [m; n] = B' ++ [m'; n'] -> B = B' /\ m = m' /\ n = n'.
  Proof.
    intros H. assert (H2 := f_equal (@rev nat) H). rewrite !rev_app_2 in H2. injection H2 as -> -> H3.
    split; [|auto]. rewrite <- (rev_involutive B), <- (rev_involutive B'), H3. reflexivity.
  Qed.
  Lemma compat_equal {A} B d n (l : list (tensor A)) e :
    compatible d l e -> l <> [] -> (forall t, In t l -> shp t = B ++ [d; n]) ->
    e = n /\ (1 < List.length l -> d = n).
  Proof.
    intros H. induction H as [|B' d n' e t ts Hs H IH]; intros Hne Hall; [contradiction|].
    pose proof (Hall t (or_introl eq_refl)) as Ht. rewrite Ht in Hs. apply app2_inj in Hs as (<- & _ & <-).
    destruct ts as [|t' ts].
    - inversion H; subst. split; [reflexivity|simpl; lia].
    - inversion H as [|B'' ? n'' ? ? ? Hs' H']; subst.
      pose proof (Hall t' (or_intror (or_introl eq_refl))) as Ht'. rewrite Ht' in Hs'.
      apply app2_inj in Hs' as (_ & E & _). subst n.
      destruct IH as [IH1 IH2]; [discriminate|intros x Hx; apply Hall; right; exact Hx|].
      split; auto.
  Qed.

  Lemma stackE2_ok (t0 : xt) (r : list xt) B d n :
    (forall t, In t (t0 :: r) -> shp t = B ++ [d; n]) ->
    exists s, stackE 2 (t0 :: r) = Ok s /\ shp s = B ++ [List.length (t0 :: r); d; n] /\
      forall b p i j, get s (b ++ [p; i; j]) = get (nth p (t0 :: r) t0) (b ++ [i; j]).
  Proof.
    intros H. unfold stackE.
    assert (E : forallb (fun t => list_eqb (shp t) (shp t0)) (t0 :: r) = true).
    { apply forallb_forall. intros t Ht. apply list_eqb_eq. rewrite (H t Ht), (H t0 (or_introl eq_refl)). reflexivity. }
    rewrite E. eexists; split; [reflexivity|]. rewrite (H t0 (or_introl eq_refl)). split.
    - cbn [shp]. rewrite (droplast_app B [d; n] 2 eq_refl), (lastn_app B [d; n] 2 eq_refl). reflexivity.
    - intros b p i j. cbn [get]. rewrite (lastn_app b [p; i; j] 3 eq_refl).
      rewrite (droplast_app b [p; i; j] 3 eq_refl), app_31, (lastn_app (b ++ [p]) [i; j] 2 eq_refl).
      reflexivity.
  Qed.

  Lemma chain_eq_map {X} d (f g : X -> nat * matK) (l : list X) :
    (forall x, In x l -> fst (f x) = fst (g x)) ->
    (forall x i k, In x l -> snd (f x) i k = snd (g x) i k) ->
    chain_eq K d (map f l) (map g l).
  Proof.
    revert d; induction l as [|x l IH]; intros d H1 H2; [exact I|].
    cbn [map]. destruct (f x) as [n M] eqn:Ef, (g x) as [n' M'] eqn:Eg. cbn [chain_eq].
    pose proof (H1 x (or_introl eq_refl)) as E1. rewrite Ef, Eg in E1. cbn in E1.
    split; [exact E1|]. split.
    - intros i k _ _. pose proof (H2 x i k (or_introl eq_refl)) as E2. rewrite Ef, Eg in E2. exact E2.
    - apply IH; intros; [apply H1|apply H2]; right; assumption.
  Qed.
  Lemma map_nth_seq {A X} (f : A -> X) (l : list A) d :
    map (fun p => f (nth p l d)) (seq 0 (List.length l)) = map f l.
  Proof.
    induction l as [|a l IH]; [reflexivity|]. cbn [List.length seq map nth]. f_equal.
    rewrite <- seq_shift, map_map. exact IH.
  Qed.

  Lemma is_broadcast_same l l' B : l' <> [] -> (forall s, In s l <-> In s l') -> is_broadcast l B -> is_broadcast l' B.
  Proof.
    intros Hne H (_ & Hle & (t & Ht & Hlt) & Hax). split; [exact Hne|].
    split; [intros s Hs; apply Hle, H, Hs|]. split; [exists t; split; [apply H, Ht|exact Hlt]|].
    intros k Hk. destruct (Hax k Hk) as [H1 (u & Hu & Eu)]. split.
    - intros s Hs. apply H1, H, Hs.
    - exists u. split; [apply H, Hu|exact Eu].
  Qed.

  Lemma bundle_ok (m : tseq (xnum K)) d e : seq_shape m d e -> seq_finite m ->
    exists m1, bundle_tensors m = Ok m1 /\ seq_shape m1 d e /\ seq_finite m1 /\
      (forall b, chain_eq K d (xmats m1 b) (xmats m b)) /\
      (forall l B, is_broadcast (l ++ seq_batches m) B -> is_broadcast (l ++ seq_batches m1) B) /\
      (forall t, m1 = TOne t -> 3 <= ndim t).
  Proof.
    intros Hs Hf. destruct m as [t|[|t0 r]].
    - exists (TOne t). split; [reflexivity|]. split; [exact Hs|]. split; [exact Hf|].
      split; [intros; apply chain_eq_refl|]. split; [auto|].
      intros t' [= <-]. destruct Hs as (B & L & E & _). unfold ndim. rewrite E, app_length. simpl; lia.
    - exists (TMany []). split; [reflexivity|]. split; [exact Hs|]. split; [exact Hf|].
      split; [intros; apply chain_eq_refl|]. split; [auto|]. discriminate.
    - cbn [bundle_tensors]. destruct (forallb _ r) eqn:E.
      + cbn [seq_shape] in Hs. inversion Hs as [|B ? n ? ? ? Hs0 Hr]; subst.
        assert (Hall : forall t, In t (t0 :: r) -> shp t = B ++ [d; n]).
        { intros t [<-|Ht]; [exact Hs0|]. rewrite forallb_forall in E.
          specialize (E t Ht). apply list_eqb_eq in E. rewrite E. exact Hs0. }
        destruct (compat_equal B d n (t0 :: r) e Hs ltac:(discriminate) Hall) as [-> Hdn].
        assert (Hnd : (ndim t0 <? 2) = false).
        { unfold ndim. rewrite Hs0, app_length. apply Nat.ltb_ge. simpl; lia. }
        rewrite Hnd. destruct (stackE2_ok t0 r B d n Hall) as (s & Es & Hsh & Hg).
        rewrite Es. cbn [rbind]. exists (TOne s). split; [reflexivity|]. split; [|split; [|split; [|split]]].
        * cbn [seq_shape]. exists B, (List.length (t0 :: r)). split; [exact Hsh|].
          intros Hl1. apply Hdn. simpl in *. lia.
        * cbn [seq_finite]. intros i Hi. rewrite Hsh in Hi.
          apply valid_app3_inv in Hi as (b & p & i' & j' & -> & Hb & Hp & Hi & Hj).
          rewrite Hg. cbn [seq_finite] in Hf. rewrite Forall_forall in Hf.
          assert (Hin : In (nth p (t0 :: r) t0) (t0 :: r)) by (apply nth_In; exact Hp).
          apply (Hf _ Hin). rewrite (Hall _ Hin). apply valid_app; [exact Hb|apply valid_2; auto].
        * intros b. cbn [xmats]. rewrite Hsh, dimE_3_0, dimE_3_2, (droplast_app B [_; d; n] 3 eq_refl).
          rewrite <- (map_nth_seq (fun t => (dimE 0 (shp t), fun i j => fval K (get t (bproj (droplast 2 (shp t)) b ++ [i; j])))) (t0 :: r) t0).
          apply chain_eq_map.
          -- intros p Hp. cbn [fst]. apply in_seq in Hp.
             rewrite (Hall (nth p (t0 :: r) t0)) by (apply nth_In; lia). rewrite dimE_2_0. reflexivity.
          -- intros p i k Hp. cbn [snd]. apply in_seq in Hp.
             rewrite (Hall (nth p (t0 :: r) t0)) by (apply nth_In; lia).
             rewrite (droplast_app B [d; n] 2 eq_refl), Hg. reflexivity.
        * intros l B'. cbn [seq_batches]. rewrite Hsh, (droplast_app B [_; d; n] 3 eq_refl).
          apply is_broadcast_same; [destruct l; discriminate|]. intros x. rewrite !in_app_iff.
          assert (Hx : In x (map (fun t => droplast 2 (shp t)) (t0 :: r)) <-> In x [B]).
          { rewrite in_map_iff. split.
            - intros (t & <- & Ht). rewrite (Hall t Ht), (droplast_app B [d; n] 2 eq_refl). left; reflexivity.
            - intros [<-|[]]. exists t0. split; [|left; reflexivity].
              rewrite Hs0, (droplast_app B [d; n] 2 eq_refl). reflexivity. }
          tauto.
        * intros t [= <-]. unfold ndim. rewrite Hsh, app_length. simpl; lia.
      + exists (TMany (t0 :: r)). split; [reflexivity|]. split; [exact Hs|]. split; [exact Hf|].
      split; [intros; apply chain_eq_refl|]. split; [auto|]. discriminate.
  Qed.

  (** *** broadcasting the operands *)
  Definition obout (B : list nat) (v v' : option xt) : Prop :=
    match v, v' with
    | Some t, Some t' => bout B 1 t t'
    | None, None => True
    | _, _ => False
    end.
  Definition sbout (B : list nat) (m m' : tseq (xnum K)) : Prop :=
    match m, m' with
    | TOne t, TOne t' => bout B 3 t t'
    | TMany l, TMany l' => Forall2 (bout B 2) l l'
    | _, _ => False
    end.
  Lemma batch_shapes_app (a c : list xt) na nc : List.length a = List.length na ->
    batch_shapes (a ++ c) (na ++ nc) = batch_shapes a na ++ batch_shapes c nc.
  Proof.
    unfold batch_shapes. revert na; induction a as [|t a IH]; intros [|n na] H; try discriminate; [reflexivity|].
    simpl in *. f_equal. apply IH. congruence.
  Qed.
  Lemma batch_shapes_const (l : list xt) n :
    batch_shapes l (map (fun _ => n) l) = map (fun t => droplast n (shp t)) l.
  Proof. unfold batch_shapes. induction l as [|t l IH]; [reflexivity|]. simpl. f_equal. exact IH. Qed.
  Lemma Forall2_const {A X} (P : A -> nat -> Prop) (l : list A) n (dummy : X) :
    (forall t, In t l -> P t n) -> Forall2 P l (map (fun _ => n) l).
  Proof. induction l as [|t l IH]; intros H; constructor; [apply H; left; reflexivity|apply IH; intros; apply H; right; assumption]. Qed.
  Lemma Forall2_combine_const {A} (P : nat -> A -> A -> Prop) (l out : list A) n :
    Forall2 (fun p t' => P (snd p) (fst p) t') (combine l (map (fun _ => n) l)) out -> Forall2 (P n) l out.
  Proof.
    revert out; induction l as [|t l IH]; intros out H; inversion H; subst; constructor; auto.
  Qed.

  Lemma bcast_inputs_ok (lv rv : option xt) (m : tseq (xnum K)) B d e :
    seq_shape m d e -> vec_shape lv d -> vec_shape rv e ->
    is_broadcast (vec_batches lv ++ vec_batches rv ++ seq_batches m) B ->
    exists lv' rv' m', bcast_inputs K lv rv m = Ok (lv', rv', m') /\
      obout B lv lv' /\ obout B rv rv' /\ sbout B m m'.
  Proof.
    intros Hm Hlv Hrv Hb. unfold bcast_inputs. cbv zeta.
    set (vecs := opt_list lv ++ opt_list rv).
    assert (Hvb : vec_batches lv ++ vec_batches rv = map (fun t => droplast 1 (shp t)) vecs).
    { unfold vecs. destruct lv, rv; reflexivity. }
    assert (Hvd : forall t, In t vecs -> 1 <= ndim t).
    { intros t Ht. unfold vecs in Ht. apply in_app_iff in Ht. unfold ndim.
      destruct Ht as [Ht|Ht].
      - destruct lv; [|destruct Ht]. destruct Ht as [->|[]]. destruct Hlv as [B' ->]. rewrite app_length; simpl; lia.
      - destruct rv; [|destruct Ht]. destruct Ht as [->|[]]. destruct Hrv as [B' ->]. rewrite app_length; simpl; lia. }
    rewrite app_assoc, Hvb in Hb.
    destruct m as [t|l].
    - destruct Hm as (Bm & L & Hsh & _).
      destruct lv as [v|], rv as [w|]; unfold vecs in *; cbn [opt_list app] in *.
      4:{ exists None, None, (TOne t). cbn in Hb. apply is_broadcast_single in Hb.
          repeat split; auto; try (apply bout_refl); cbn; rewrite <- Hb; apply bout_refl. }
      all: match goal with |- context [batch_broadcast ?ts ?ns] =>
             destruct (batch_broadcast_any ts ns B) as (out & E & HF);
             [reflexivity
             |repeat constructor; try (apply Hvd; simpl; tauto); unfold ndim; rewrite Hsh, app_length; simpl; lia
             |exact Hb|]; rewrite E; cbn [rbind] end.
      all: repeat match goal with H : Forall2 _ (combine _ _) _ |- _ => cbn in H; inversion H; clear H; subst
                  | H : Forall2 _ (_ :: _) _ |- _ => inversion H; clear H; subst
                  | H : Forall2 _ [] _ |- _ => inversion H; clear H; subst end.
      all: cbn; eexists _, _, _; split; [reflexivity|]; cbn in *; auto.
    - destruct (batch_broadcast_any (vecs ++ l) (map (fun _ => 1) vecs ++ map (fun _ => 2) l) B)
        as (out & E & HF).
      + rewrite !app_length, !map_length. reflexivity.
      + apply Forall2_app; apply (Forall2_const _ _ _ tt); [exact Hvd|].
        intros t Ht. destruct (compat_in d l e t Hm Ht) as (Bt & p & q & Et).
        unfold ndim. rewrite Et, app_length. simpl; lia.
      + rewrite batch_shapes_app, !batch_shapes_const by (rewrite map_length; reflexivity). exact Hb.
      + rewrite E. cbn [rbind].
        destruct lv as [v|], rv as [w|]; unfold vecs in *; cbn [opt_list app map combine] in *.
        all: repeat match goal with H : Forall2 _ (_ :: _) _ |- _ => inversion H; clear H; subst end.
        all: match goal with H : Forall2 _ (combine _ _) _ |- _ => apply (Forall2_combine_const (bout B)) in H end.
        all: cbn; eexists _, _, _; split; [reflexivity|]; cbn in *; auto.
  Qed.

  (** *** boundary vectors as matrices *)
  Lemma unsqE1_shp {A} (t : tensor A) B d : shp t = B ++ [d] -> shp (unsqE 1 t) = B ++ [1; d].
  Proof.
    intros H. unfold unsqE. cbn [shp]. rewrite H, (droplast_app B [d] 1 eq_refl), (lastn_app B [d] 1 eq_refl). reflexivity.
  Qed.
  Lemma unsqE1_get {A} (t : tensor A) b i j : get (unsqE 1 t) (b ++ [i; j]) = get t (b ++ [j]).
  Proof.
    unfold unsqE. cbn [get]. rewrite (droplast_app b [i; j] 2 eq_refl).
    replace (b ++ [i; j]) with ((b ++ [i]) ++ [j]) by (rewrite <- app_assoc; reflexivity).
    rewrite (lastn_app (b ++ [i]) [j] 1 eq_refl). reflexivity.
  Qed.
  Lemma unsqE0_shp {A} (t : tensor A) B d : shp t = B ++ [d] -> shp (unsqE 0 t) = B ++ [d; 1].
  Proof. intros H. unfold unsqE. cbn [shp]. rewrite H, droplast_0, lastn_0, <- app_assoc. reflexivity. Qed.
  Lemma unsqE0_get {A} (t : tensor A) b i j : get (unsqE 0 t) (b ++ [i; j]) = get t (b ++ [i]).
  Proof.
    unfold unsqE. cbn [get]. rewrite lastn_0, app_nil_r.
    replace (b ++ [i; j]) with ((b ++ [i]) ++ [j]) by (rewrite <- app_assoc; reflexivity).
    rewrite (droplast_app (b ++ [i]) [j] 1 eq_refl). reflexivity.
  Qed.
  Lemma tfinite_unsq1 (t : xt) B d : shp t = B ++ [d] -> tfinite t -> tfinite (unsqE 1 t).
  Proof.
    intros Hs Hf i Hi. rewrite (unsqE1_shp t B d Hs) in Hi.
    apply valid_app2_inv in Hi as (b & p & q & -> & Hb & Hp & Hq). rewrite unsqE1_get.
    apply Hf. rewrite Hs. apply valid_app; [exact Hb|apply valid_1; auto].
  Qed.
  Lemma tfinite_unsq0 (t : xt) B d : shp t = B ++ [d] -> tfinite t -> tfinite (unsqE 0 t).
  Proof.
    intros Hs Hf i Hi. rewrite (unsqE0_shp t B d Hs) in Hi.
    apply valid_app2_inv in Hi as (b & p & q & -> & Hb & Hp & Hq). rewrite unsqE0_get.
    apply Hf. rewrite Hs. apply valid_app; [exact Hb|apply valid_1; auto].
  Qed.
  Definition fvec (v : xt) (b : list nat) : vec K := fun i => fval K (get v (b ++ [i])).
  Definition lpart (lv : option xt) (d : nat) (b : list nat) : list (nat * matK) :=
    match lv with Some v => [(d, fun _ j => fvec v b j)] | None => [] end.
  Definition rpart (rv : option xt) (b : list nat) : list (nat * matK) :=
    match rv with Some v => [(1, fun i _ => fvec v b i)] | None => [] end.
  Definition rows (lv : option xt) (d : nat) := match lv with Some _ => 1 | None => d end.

  (** matrices of the broadcast operands at a batch index *)
  Definition bmats (m : tseq (xnum K)) (b : list nat) : list (nat * matK) :=
    match m with
    | TOne t => slices K b t (dimE 2 (shp t)) (dimE 0 (shp t))
    | TMany l => chain_at K b l
    end.

  Lemma tfinite_bout B n (t t' : xt) : n <= ndim t -> bout B n t t' ->
    (forall b, valid B b -> valid (droplast n (shp t)) (bproj (droplast n (shp t)) b)) ->
    tfinite t -> tfinite t'.
  Proof.
    intros Hn [Hs Hg] Hv Hf i Hi. rewrite Hs in Hi. apply valid_app_inv in Hi as (b & r & -> & Hb & Hr).
    rewrite Hg by assumption. apply Hf. rewrite <- (droplast_lastn n (shp t)) at 1.
    apply valid_app; [apply Hv, Hb|exact Hr].
  Qed.

  (** selecting slice [p] of a stack *)
  Lemma selE2_shp {A} (t : tensor A) B n d e p : shp t = B ++ [n; d; e] -> shp (selE 2 t p) = B ++ [d; e].
  Proof.
    intros H. unfold selE. cbn [shp]. rewrite H, (droplast_app B [n; d; e] 3 eq_refl), app_31,
      (lastn_app (B ++ [n]) [d; e] 2 eq_refl). reflexivity.
  Qed.
  Lemma selE2_get {A} (t : tensor A) b p i j : get (selE 2 t p) (b ++ [i; j]) = get t (b ++ [p; i; j]).
  Proof.
    unfold selE. cbn [get]. rewrite (droplast_app b [i; j] 2 eq_refl), (lastn_app b [i; j] 2 eq_refl). reflexivity.
  Qed.

  Lemma mats_slices (t : xt) B n d e : shp t = B ++ [n; d; e] -> (n <> 1 -> d = e) ->
    mats K B d (map (selE 2 t) (seq 0 n)) e.
  Proof.
    intros Hs Hsq. destruct (Nat.eq_dec n 1) as [->|Hn].
    - cbn [seq map]. apply (mats_cons K B d e); [|constructor]. apply (selE2_shp t B 1 d e), Hs.
    - assert (d = e) by auto. subst e.
      assert (G : forall k a, mats K B d (map (selE 2 t) (seq a k)) d).
      { induction k as [|k IH]; intros a; [constructor|]. cbn [seq map].
        apply (mats_cons K B d d); [apply (selE2_shp t B n d d), Hs|apply IH]. }
      apply G.
  Qed.
  Lemma sel_chain (t : xt) B n d e b : shp t = B ++ [n; d; e] ->
    chain_eq K d (chain_at K b (map (selE 2 t) (seq 0 n))) (slices K b t n e).
  Proof.
    intros Hs. unfold chain_at, slices. rewrite map_map. apply chain_eq_map.
    - intros p _. cbn [fst]. rewrite (selE2_shp t B n d e p Hs), dimE_2_0. reflexivity.
    - intros p i k _. cbn [snd]. unfold ment, slice. rewrite selE2_get. reflexivity.
  Qed.

  Lemma chain_eq_mono d d' a b : chain_eq K d a b -> (forall i, i < d' -> i < d) -> chain_eq K d' a b.
  Proof.
    destruct a as [|[n M] a], b as [|[n' M'] b]; simpl; auto.
    intros (-> & H & H') Hd. split; [reflexivity|]. split; [|exact H']. intros i k Hi Hk. apply H; auto.
  Qed.
  Lemma chain_eq_trans d a b c : chain_eq K d a b -> chain_eq K d b c -> chain_eq K d a c.
  Proof.
    revert d b c; induction a as [|[n M] a IH]; intros d [|[n' M'] b] [|[n'' M''] c]; simpl; try tauto.
    intros (-> & H1 & H2) (-> & H3 & H4). split; [reflexivity|]. split.
    - intros i k Hi Hk. rewrite H1, H3 by assumption. reflexivity.
    - apply (IH _ b); assumption.
  Qed.
  Lemma chain_eq_cols d a b : chain_eq K d a b -> cols K d a = cols K d b.
  Proof.
    revert d b; induction a as [|[n M] a IH]; intros d [|[n' M'] b]; simpl; try tauto.
    intros (-> & H1 & H2). rewrite !(cols_cons K). apply IH, H2.
  Qed.

  (** *** the reduction itself, before squeezing *)
  Definition reduce_of (use_parallel no_vecs : bool) (lv' rv' : option xt) (m' : tseq (xnum K))
    : res (xt * xr) :=
      (match use_parallel, m' with
       | true, TOne t =>
           let* pl := mat_reduce_par K t in
           let (product, log_scale) := pl in
           let* product := (match lv' with
                            | Some v => matmul (S := XK) (unsqE 1 v) product
                            | None => Ok product
                            end) in
           let* product := (match rv' with
                            | Some v => matmul (S := XK) product (unsqE 0 v)
                            | None => Ok product
                            end) in
           Ok (product, log_scale)
       | _, _ =>
           let mats := match m' with
                       | TOne t => map (selE 2 t) (seq 0 (dimE 2 (shp t)))
                       | TMany l => l
                       end in
           if no_vecs && (List.length mats =? 0) then Err ValueError
           else mat_reduce_seq K (map (unsqE 1) (opt_list lv') ++ mats
                                ++ map (unsqE 0) (opt_list rv'))
       end).

  Definition bseq_shape (B : list nat) (m : tseq (xnum K)) (d e : nat) : Prop :=
    match m with
    | TOne t => exists n, shp t = B ++ [n; d; e] /\ (n <> 1 -> d = e)
    | TMany l => mats K B d l e
    end.
  Definition bvec_shape (B : list nat) (v : option xt) (d : nat) : Prop :=
    match v with Some t => shp t = B ++ [d] /\ tfinite t | None => True end.

  (** when the result is NaN: the matrix product (parallel strategy, two or more matrices)
      or the complete product (sequential strategy, two or more factors) vanishes *)
  Definition lostx (up : bool) (lv' rv' : option xt) (m' : tseq (xnum K)) (d e : nat) (b : list nat) : Prop :=
    match up, m' with
    | true, TOne t => 2 <= dimE 2 (shp t) /\ zeromat K d e (chain (bmats m' b))
    | _, _ => 2 <= List.length (bmats m' b) + List.length (opt_list lv') + List.length (opt_list rv') /\
              zeromat K (rows lv' d) (rows rv' e) (chain (lpart lv' d b ++ bmats m' b ++ rpart rv' b))
    end.
  Lemma chain_eq_length d a c : chain_eq K d a c -> List.length a = List.length c.
  Proof.
    revert d c; induction a as [|[n M] a IH]; intros d [|[n' M'] c]; simpl; try tauto.
    intros (_ & _ & H). f_equal. apply (IH _ _ H).
  Qed.
  Lemma lostx_dec up lv' rv' m' d e b : lostx up lv' rv' m' d e b \/ ~ lostx up lv' rv' m' d e b.
  Proof.
    assert (G : forall n a c X, (2 <= n /\ zeromat K a c X) \/ ~ (2 <= n /\ zeromat K a c X)).
    { intros n a c X. destruct (Nat.lt_ge_cases n 2); [right; lia|].
      destruct (zero_dec K a c X) as [Hz|(i & j & Hi & Hj & Hn)]; [left; auto|right].
      intros [_ Hz]. apply Hn, Hz; assumption. }
    unfold lostx. destruct up, m'; apply G.
  Qed.

  Lemma reduce_ok up B d e lv' rv' m' :
    bvec_shape B lv' d -> bvec_shape B rv' e -> bseq_shape B m' d e -> seq_finite m' ->
    (m' = TMany [] -> lv' <> None \/ rv' <> None) ->
    let nv := negb (some_ lv') && negb (some_ rv') in
    (nv = true -> forall t, m' = TOne t -> up = true) ->
    exists P L, reduce_of up nv lv' rv' m' = Ok (P, L) /\
      shp P = B ++ [rows lv' d; rows rv' e] /\ shp L = B ++ [1; 1] /\
      forall b, valid B b ->
        let X := chain (lpart lv' d b ++ bmats m' b ++ rpart rv' b) in
        0 < d -> 0 < e -> exactly K (lostx up lv' rv' m' d e b) P L b (rows lv' d) (rows rv' e) X.
  Proof.
    intros Hlv Hrv Hm Hf Hne nv Hup.
    assert (Hseq : forall ms, mats K B d ms e -> Forall tfinite ms ->
        (forall b, chain_eq K d (chain_at K b ms) (bmats m' b)) ->
        (nv = true -> ms <> []) -> 
        map (unsqE 1) (opt_list lv') ++ ms ++ map (unsqE 0) (opt_list rv') <> [] ->
        exists P L, mat_reduce_seq K (map (unsqE 1) (opt_list lv') ++ ms
                                ++ map (unsqE 0) (opt_list rv')) = Ok (P, L) /\
      shp P = B ++ [rows lv' d; rows rv' e] /\ shp L = B ++ [1; 1] /\
      forall b, valid B b ->
        let X := chain (lpart lv' d b ++ bmats m' b ++ rpart rv' b) in
        0 < d -> 0 < e -> exactly K (lostx false lv' rv' m' d e b) P L b (rows lv' d) (rows rv' e) X).
    { intros ms Hms Hfm Hce Hnv Hnn.
      assert (Hfull : mats K B (rows lv' d) (map (unsqE 1) (opt_list lv') ++ ms ++ map (unsqE 0) (opt_list rv')) (rows rv' e)).
      { apply (mats_app K B _ _ d).
        - destruct lv' as [v|]; cbn [opt_list map rows]; [|constructor].
          apply (mats_cons K B 1 d); [apply unsqE1_shp, Hlv|constructor].
        - apply (mats_app K B _ _ e); [exact Hms|].
          destruct rv' as [v|]; cbn [opt_list map rows]; [|constructor].
          apply (mats_cons K B e 1); [apply unsqE0_shp, Hrv|constructor]. }
      destruct (mat_reduce_seq_exact K B _ _ _ Hfull Hnn) as (P & L & E & HP & HL & H).
      - apply Forall_app. split; [|apply Forall_app; split; [exact Hfm|]].
        + destruct lv' as [v|]; cbn [opt_list map]; [|constructor]. constructor; [|constructor].
          apply (tfinite_unsq1 v B d); apply Hlv.
        + destruct rv' as [v|]; cbn [opt_list map]; [|constructor]. constructor; [|constructor].
          apply (tfinite_unsq0 v B e); apply Hrv.
      - exists P, L. split; [exact E|]. split; [exact HP|]. split; [exact HL|].
        intros b Hb. cbv zeta.
        assert (Hch : chain_eq K (rows lv' d)
            (chain_at K b (map (unsqE 1) (opt_list lv') ++ ms ++ map (unsqE 0) (opt_list rv')))
            (lpart lv' d b ++ bmats m' b ++ rpart rv' b)).
        { unfold chain_at. rewrite !map_app. apply chain_eq_app; [|apply chain_eq_app].
          - destruct lv' as [v|]; cbn [opt_list map lpart]; [|exact I]. cbn [chain_eq].
            rewrite (unsqE1_shp v B d) by apply Hlv. rewrite dimE_2_0. split; [reflexivity|].
            split; [|exact I]. intros i k _ _. unfold ment, fvec. rewrite unsqE1_get. reflexivity.
          - assert (Hc : cols K (rows lv' d) (map (fun t => (dimE 0 (shp t), ment K b t)) (map (unsqE 1) (opt_list lv'))) = d).
            { destruct lv' as [v|]; cbn [opt_list map rows]; [|reflexivity].
              rewrite (cols_cons K), (unsqE1_shp v B d) by apply Hlv. rewrite dimE_2_0. reflexivity. }
            rewrite Hc. apply Hce.
          - destruct rv' as [v|]; cbn [opt_list map rpart]; [|exact I]. cbn [chain_eq].
            rewrite (unsqE0_shp v B e) by apply Hrv. rewrite dimE_2_0. split; [reflexivity|].
            split; [|exact I]. intros i k _ _. unfold ment, fvec. rewrite unsqE0_get. reflexivity. }
        intros Hd He. destruct (H b Hb) as [Hbad Hrep]; [destruct lv'; simpl; lia|destruct rv'; simpl; lia|].
        assert (Heq : forall i j, i < rows lv' d -> j < rows rv' e ->
          chain (chain_at K b (map (unsqE 1) (opt_list lv') ++ ms ++ map (unsqE 0) (opt_list rv'))) i j
          = chain (lpart lv' d b ++ bmats m' b ++ rpart rv' b) i j)
          by (intros i j Hi Hj; apply (chain_eq_chain K (rows lv' d)); assumption).
        assert (Hlen : List.length (bmats m' b) = List.length ms).
        { rewrite <- (chain_eq_length _ _ _ (Hce b)). apply map_length. }
        rewrite !app_length, !map_length in Hbad, Hrep. unfold lostx. rewrite Hlen. split.
        + intros [Hl Hzz]. split; [|exact Hzz]. apply Hbad. split; [lia|].
          intros i j Hi Hj. rewrite Heq by assumption. apply Hzz; assumption.
        + intros Hc. apply (rep_ext K _ _ _ _ _ (chain (chain_at K b (map (unsqE 1) (opt_list lv') ++ ms ++ map (unsqE 0) (opt_list rv')))));
            [|exact Heq].
          apply Hrep. intros [Hl Hzz]. apply Hc. split; [lia|].
          intros i j Hi Hj. rewrite <- Heq by assumption. apply Hzz; assumption. }
    assert (Hnvd : nv = true -> lv' = None /\ rv' = None).
    { unfold nv. destruct lv', rv'; simpl; try discriminate; auto. }
    destruct m' as [t|l].
    - destruct Hm as (n & Hs & Hsq). destruct up.
      + cbn [reduce_of]. destruct (mat_reduce_par_ok K t B n d e Hs Hsq Hf) as (P & L & E & HP & HL & H).
        rewrite E. cbn [rbind].
        assert (H1 : exists P1, (match lv' with Some v => matmul (S := XK) (unsqE 1 v) P | None => Ok P end) = Ok P1 /\
           shp P1 = B ++ [rows lv' d; e] /\
           forall b, valid B b -> let X := chain (lpart lv' d b ++ slices K b t n e) in
              0 < d -> 0 < e -> exactly K (2 <= n /\ zeromat K d e (chain (slices K b t n e))) P1 L b (rows lv' d) e X).
        { destruct lv' as [v|]; cbn [rows lpart app].
          - destruct Hlv as [Hvs Hvf].
            destruct (rep_matmul_l K P (unsqE 1 v) L B 1 d e) as (P1 & E1 & HP1 & H1);
              [apply unsqE1_shp, Hvs|exact HP|].
            exists P1. split; [exact E1|]. split; [exact HP1|]. intros b Hb. cbv zeta. intros Hd He.
            cbn [chain] in *. destruct (H b Hb Hd He) as [Hb1 Hr1].
            split.
            1:{ intros Hc. destruct (Hb1 Hc) as [Hbad Hz]. destruct (matmul_same (S := XK) (unsqE 1 v) P B 1 d e) as (Q' & E' & _ & G);
                  [apply unsqE1_shp, Hvs|exact HP|].
                rewrite E1 in E'. injection E' as <-. split.
                - intros i j Hi Hj. rewrite G by exact Hb. apply (bsum_xbad (S := K) d _ 0); [exact Hd|].
                  change (xlift2 (@smul K) (get (unsqE 1 v) (b ++ [i; 0])) (get P (b ++ [0; j])) = Bad).
                  rewrite Hbad by assumption. destruct (get (unsqE 1 v) (b ++ [i; 0])); reflexivity.
                - intros i j Hi Hj. unfold mmul. apply bsum_zero. intros k Hk. rewrite Hz by assumption. ring. }
            intros Hc. apply H1; [exact Hb|exact (Hr1 Hc)|].
            + intros i j Hi Hj. rewrite unsqE1_get. unfold fvec.
              destruct (Hvf (b ++ [j])) as [a Ha].
              * rewrite Hvs. apply valid_app; [exact Hb|apply valid_1; exact Hj].
              * rewrite Ha. reflexivity.
          - exists P. split; [reflexivity|]. split; [exact HP|]. exact H. }
        destruct H1 as (P1 & E1 & HP1 & H1). rewrite E1. cbn [rbind].
        destruct rv' as [w|]; cbn [rows rpart].
        * destruct Hrv as [Hws Hwf].
          destruct (rep_matmul_r K P1 (unsqE 0 w) L B (rows lv' d) e 1) as (P2 & E2 & HP2 & H2);
            [exact HP1|apply unsqE0_shp, Hws|].
          rewrite E2. cbn [rbind]. exists P2, L. split; [reflexivity|]. split; [exact HP2|]. split; [exact HL|].
          intros b Hb. cbv zeta. intros Hd He. cbn [bmats] in *. rewrite Hs, dimE_3_2, dimE_3_0 in *.
          rewrite app_assoc in *.
          set (Y := lpart lv' d b ++ slices K b t n e) in *.
          assert (Hc : forall i, i < rows lv' d -> cols K (rows lv' d) Y = e).
          { intros i Hi. unfold Y. rewrite (cols_app K).
            assert (Hc1 : cols K (rows lv' d) (lpart lv' d b) = d) by (destruct lv'; reflexivity).
            rewrite Hc1. unfold slices. destruct n as [|n].
            - cbn. apply Hsq. lia.
            - change (cols K d (cl K e (slice K b t) 0 (S n)) = e). apply cols_cl. lia. }
          assert (HX : forall i j, i < rows lv' d -> j < 1 ->
             chain (Y ++ [(1, fun i0 _ => fvec w b i0)]) i j = mmul e (chain Y) (fun i _ => fvec w b i) i j).
          { intros i j Hi Hj. rewrite (chain_app K (rows lv' d)) by exact Hi. rewrite (Hc i Hi).
            apply mmul_ext; [reflexivity|]. intros k Hk. apply (chain_single K). exact Hj. }
          destruct (H1 b Hb Hd He) as [Hb1 Hr1]. unfold lostx. cbn [bmats]. rewrite Hs, dimE_3_2, dimE_3_0.
          split; [|intros Hlo; apply (rep_ext K _ _ _ _ _ (mmul e (chain Y) (fun i _ => fvec w b i)));
            [|intros; symmetry; apply HX; assumption]].
          2:{ pose proof (Hr1 Hlo) as Hr. apply H2; [exact Hb|exact Hr|].
             intros i j Hi Hj. rewrite unsqE0_get. unfold fvec.
             destruct (Hwf (b ++ [i])) as [a Ha].
             ++ rewrite Hws. apply valid_app; [exact Hb|apply valid_1; exact Hi].
             ++ rewrite Ha. reflexivity. }
          -- intros Hlo. destruct (Hb1 Hlo) as [Hbad Hz]. destruct (matmul_same (S := XK) P1 (unsqE 0 w) B (rows lv' d) e 1) as (Q' & E' & _ & G);
               [exact HP1|apply unsqE0_shp, Hws|].
             rewrite E2 in E'. injection E' as <-. split.
             ++ intros i j Hi Hj. rewrite G by exact Hb. apply (bsum_xbad (S := K) e _ 0); [exact He|].
                change (xlift2 (@smul K) (get P1 (b ++ [i; 0])) (get (unsqE 0 w) (b ++ [0; j])) = Bad).
                rewrite Hbad by assumption. reflexivity.
             ++ intros i j Hi Hj. rewrite HX by assumption. unfold mmul. apply bsum_zero. intros k Hk. unfold Y in *. rewrite Hz by assumption. ring.
        * cbn [rbind]. exists P1, L. split; [reflexivity|]. split; [exact HP1|]. split; [exact HL|].
          intros b Hb. cbv zeta. cbn [bmats]. rewrite app_nil_r, Hs, dimE_3_2, dimE_3_0.
          intros Hd He. unfold lostx. cbn [bmats]. rewrite Hs, dimE_3_2, dimE_3_0. apply H1; assumption.
      + cbn [reduce_of]. rewrite Hs, dimE_3_2.
        assert (Hnvf : nv = false).
        { destruct nv eqn:En; [|reflexivity]. specialize (Hup eq_refl t eq_refl). discriminate. }
        rewrite Hnvf. cbn [andb]. apply Hseq.
        * apply mats_slices; assumption.
        * apply Forall_forall. intros u Hu. apply in_map_iff in Hu as (p & <- & Hp). apply in_seq in Hp.
          intros i Hi. rewrite (selE2_shp t B n d e p Hs) in Hi.
          apply valid_app2_inv in Hi as (b & x & y & -> & Hb & Hx & Hy). rewrite selE2_get.
          apply Hf. rewrite Hs. apply valid_app; [exact Hb|]. repeat constructor; [lia|assumption..].
        * intros b. cbn [bmats]. rewrite Hs, dimE_3_2, dimE_3_0. apply (sel_chain t B), Hs.
        * rewrite Hnvf. discriminate.
        * unfold nv in Hnvf. destruct lv', rv'; simpl in *; try discriminate.
          intros Hx. apply app_eq_nil in Hx as [_ Hx]. discriminate.
    - assert (Hnn : nv = true -> l <> []).
      { intros Hnv Hl. subst l. destruct (Hnvd Hnv) as [-> ->]. destruct (Hne eq_refl); congruence. }
      assert (Hgoal : (if nv && (List.length l =? 0) then Err ValueError
           else mat_reduce_seq K (map (unsqE 1) (opt_list lv') ++ l ++ map (unsqE 0) (opt_list rv')))
         = mat_reduce_seq K (map (unsqE 1) (opt_list lv') ++ l ++ map (unsqE 0) (opt_list rv'))).
      { destruct nv eqn:En; [|reflexivity]. destruct l; [|reflexivity]. elim (Hnn eq_refl). reflexivity. }
      assert (Hred : reduce_of up nv lv' rv' (TMany l) = mat_reduce_seq K (map (unsqE 1) (opt_list lv') ++ l ++ map (unsqE 0) (opt_list rv'))).
      { unfold reduce_of. destruct up; exact Hgoal. }
      rewrite Hred. replace (lostx up lv' rv' (TMany l) d e) with (lostx false lv' rv' (TMany l) d e)
        by (destruct up; reflexivity).
      apply Hseq.
      + exact Hm.
      + exact Hf.
      + intros b. apply chain_eq_refl.
      + exact Hnn.
      + intros Hx. apply app_eq_nil in Hx as [Hx1 Hx]. apply app_eq_nil in Hx as [Hx2 Hx3].
        destruct (Hne); [rewrite Hx2; reflexivity| |]; destruct lv', rv'; simpl in *; try discriminate; congruence.
  Qed.
End Top.
