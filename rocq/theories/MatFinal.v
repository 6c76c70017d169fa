(** * MatFinal: the theorem on contract_matseq in terms of [MatSpec]. *)
From Coq Require Import Ring_theory Ring Reals Lra Permutation.
From Verif Require Import Base Scalars Tensor Utils2 MpsBase Spec MatSpec LinAlg Utils2Proofs MatseqProofs ParProofs MatTop.

(** squeezing the last or the second to last axis of size 1 *)
Lemma squeezeE1_shp {A} (t : tensor A) B n : shp t = B ++ [1; n] -> shp (squeezeE 1 t) = B ++ [n].
Proof.
  intros H. unfold squeezeE. rewrite H, dimE_2_1. cbn [Nat.eqb shp].
  rewrite (droplast_app B [1; n] 2 eq_refl).
  replace (B ++ [1; n]) with ((B ++ [1]) ++ [n]) by (rewrite <- app_assoc; reflexivity).
  rewrite (lastn_app (B ++ [1]) [n] 1 eq_refl). reflexivity.
Qed.
Lemma squeezeE1_get {A} (t : tensor A) B n b j : shp t = B ++ [1; n] ->
  get (squeezeE 1 t) (b ++ [j]) = get t (b ++ [0; j]).
Proof.
  intros H. unfold squeezeE. rewrite H, dimE_2_1. cbn [Nat.eqb get].
  rewrite (droplast_app b [j] 1 eq_refl), (lastn_app b [j] 1 eq_refl). reflexivity.
Qed.
Lemma squeezeE0_shp {A} (t : tensor A) B : shp t = B ++ [1] -> shp (squeezeE 0 t) = B.
Proof.
  intros H. unfold squeezeE. rewrite H, dimE_0. cbn [Nat.eqb shp].
  rewrite (droplast_app B [1] 1 eq_refl), lastn_0. apply app_nil_r.
Qed.
Lemma squeezeE0_get {A} (t : tensor A) B b : shp t = B ++ [1] -> get (squeezeE 0 t) b = get t (b ++ [0]).
Proof.
  intros H. unfold squeezeE. rewrite H, dimE_0. cbn [Nat.eqb get].
  rewrite droplast_0, lastn_0, app_nil_r. reflexivity.
Qed.

Section Final.
  Variable K : numfield.
  Add Ring KrF : (rth K).
  Notation xt := (tensor (xnum K)).
  Notation xr := (tensor xreal).
  Notation XK := (xn_ops K).
  Notation matK := (mat K).
  Notation ofR := (nofR K).

  Lemma some_obout B (v v' : option xt) : obout K B v v' -> some_ v' = some_ v.
  Proof. destruct v, v'; simpl; tauto. Qed.

  Lemma contract_unfold m lv rv par m1 lv' rv' m' :
    bundle_tensors m = Ok m1 -> (forall t, m1 = TOne t -> 3 <= ndim t) ->
    bcast_inputs K lv rv m1 = Ok (lv', rv', m') ->
    let nv := negb (some_ lv) && negb (some_ rv) in
    let up := (match m1 with TOne _ => true | TMany _ => false end) && (par || nv) in
    contract_matseq K m lv rv par =
      let* pl := reduce_of K up nv lv' rv' m' in
      let (product, log_scale) := pl in
      let sq1 := fun (b : bool) k => if b then squeezeE (A := xnum K) k else (fun t => t) in
      let sq2 := fun (b : bool) k => if b then squeezeE (A := xreal) k else (fun t => t) in
      Ok (sq1 (some_ rv) 0 (sq1 (some_ lv) 1 product), sq2 (some_ rv) 0 (sq2 (some_ lv) 1 log_scale)).
  Proof.
    intros H1 H2 H3. cbv zeta. unfold contract_matseq. rewrite H1. cbn [rbind].
    assert (E : (match m1 with TOne t => if ndim t <? 3 then Err IndexError else Ok tt | TMany _ => Ok tt end) = Ok tt).
    { destruct m1 as [t|l]; [|reflexivity]. specialize (H2 t eq_refl).
      destruct (Nat.ltb_spec (ndim t) 3); [lia|reflexivity]. }
    rewrite E. cbn [rbind]. rewrite H3. cbn [rbind]. reflexivity.
  Qed.

  Lemma bout_ment B (t t' : xt) Bt d n b i j : shp t = Bt ++ [d; n] -> bout B 2 t t' -> valid B b ->
    i < d -> j < n -> get t' (b ++ [i; j]) = get t (bproj Bt b ++ [i; j]).
  Proof.
    intros Hs [_ Hg] Hb Hi Hj. rewrite Hs in Hg.
    rewrite (lastn_app Bt [d; n] 2 eq_refl), (droplast_app Bt [d; n] 2 eq_refl) in Hg.
    apply Hg; [exact Hb|apply valid_2; auto].
  Qed.

  Lemma sbout_ok B (m m' : tseq (xnum K)) d e : seq_shape m d e -> seq_finite K m ->
    (forall s, In s (seq_batches m) -> bc_compat s B) -> sbout K B m m' ->
    bseq_shape K B m' d e /\ seq_finite K m' /\
    forall b, valid B b -> chain_eq K d (bmats K m' b) (xmats K m b) /\ cols K d (bmats K m' b) = e.
  Proof.
    intros Hs Hf Hc Hb. destruct m as [t|l], m' as [t'|l']; simpl in Hb; try contradiction.
    - destruct Hs as (Bt & L & Hs & Hsq).
      pose proof Hb as [Hs' Hg]. rewrite Hs in Hs', Hg.
      rewrite (lastn_app Bt [L; d; e] 3 eq_refl) in Hs', Hg.
      rewrite (droplast_app Bt [L; d; e] 3 eq_refl) in Hg.
      assert (Hcc : bc_compat Bt B).
      { apply Hc. left. rewrite Hs. apply (droplast_app Bt [L; d; e] 3 eq_refl). }
      split; [exists L; split; assumption|]. split.
      + intros i Hi. rewrite Hs' in Hi.
        apply valid_app_inv in Hi as (b & r & -> & Hb' & Hr).
        rewrite Hg by assumption. apply Hf. rewrite Hs. apply valid_app; [|exact Hr].
        apply (bproj_compat_valid Bt B); assumption.
      + intros b Hb'. cbn [bmats xmats]. rewrite Hs', Hs, !dimE_3_2, !dimE_3_0.
        rewrite (droplast_app Bt [L; d; e] 3 eq_refl). split.
        * assert (G : forall k a d', a + k = L -> d' = d \/ (d' = e /\ L <> 1) -> chain_eq K d' (map (fun p => (e, slice K b t' p)) (seq a k))
             (map (fun p => (e, fun i j => fval K (get t (bproj Bt b ++ [p; i; j])))) (seq a k))).
          { induction k as [|k IH]; intros a d' Ha Hd'; [exact I|]. cbn [seq map chain_eq].
            split; [reflexivity|]. split.
            - intros i j Hi Hj. unfold slice. rewrite Hg; [reflexivity|exact Hb'|].
              assert (Hid : i < d) by (destruct Hd' as [->|[-> Hn]]; [exact Hi|rewrite Hsq by exact Hn; exact Hi]).
              repeat constructor; [lia|exact Hid|exact Hj].
            - destruct k as [|k]; [exact I|]. apply IH; [lia|]. right. split; [reflexivity|lia]. }
          apply G; [lia|left; reflexivity].
        * unfold slices. destruct L as [|L]; [cbn; apply Hsq; lia|].
          change (cols K d (cl K e (slice K b t') 0 (S L)) = e). apply cols_cl. lia.
    - cbn in Hs, Hf, Hc.
      assert (HF : mats K B d l' e /\ Forall (tfinite K) l' /\
         forall b, valid B b -> chain_eq K d (chain_at K b l') (xmats K (TMany l) b)).
      { revert d Hs Hf Hc. induction Hb as [|t t' l l' Ht Hl IH]; intros d Hs Hf Hc.
        - inversion Hs; subst. split; [constructor|]. split; [constructor|]. intros; exact I.
        - inversion Hs as [|Bt ? n ? ? ? Hst Hsl]; subst. inversion Hf as [|? ? Hft Hfl]; subst.
          destruct (IH n Hsl Hfl) as (IH1 & IH2 & IH3); [intros s Hin; apply Hc; right; exact Hin|].
          pose proof Ht as [Hst' Hgt']. rewrite Hst, (lastn_app Bt [d; n] 2 eq_refl) in Hst'.
          assert (Hcc : bc_compat Bt B).
          { apply Hc. left. rewrite Hst. apply (droplast_app Bt [d; n] 2 eq_refl). }
          split; [apply (mats_cons K B d n); assumption|]. split.
          + constructor; [|exact IH2]. intros i Hi. rewrite Hst' in Hi.
            apply valid_app2_inv in Hi as (b & x & y & -> & Hb' & Hx & Hy).
            rewrite (bout_ment B t t' Bt d n) by assumption. apply Hft. rewrite Hst.
            apply valid_app; [apply (bproj_compat_valid Bt B); assumption|apply valid_2; auto].
          + intros b Hb'. cbn [chain_at xmats map chain_eq]. rewrite Hst', Hst, !dimE_2_0.
            split; [reflexivity|]. split; [|apply IH3, Hb'].
            intros i k Hi Hk. unfold ment. rewrite (bout_ment B t t' Bt d n) by assumption.
            rewrite (droplast_app Bt [d; n] 2 eq_refl). reflexivity. }
      destruct HF as (H1 & H2 & H3). split; [exact H1|]. split; [exact H2|].
      intros b Hb'. split; [apply H3, Hb'|]. apply (cols_chain_at K B d l' e b H1).
  Qed.

  Lemma obout_ok B (v v' : option xt) d : vec_shape v d ->
    (forall t, v = Some t -> tfinite K t) ->
    (forall s, In s (vec_batches v) -> bc_compat s B) -> obout K B v v' ->
    bvec_shape K B v' d /\
    forall t t', v = Some t -> v' = Some t' -> forall b i, valid B b -> i < d ->
      fvec K t' b i = fval K (get t (bproj (droplast 1 (shp t)) b ++ [i])).
  Proof.
    intros Hs Hf Hc Ho. destruct v as [t|], v' as [t'|]; simpl in Ho; try contradiction.
    - destruct Hs as (Bt & Hs). pose proof Ho as [Hs' Hg]. rewrite Hs in Hs', Hg.
      rewrite (lastn_app Bt [d] 1 eq_refl) in Hs', Hg. rewrite (droplast_app Bt [d] 1 eq_refl) in Hg.
      assert (Hcc : bc_compat Bt B).
      { apply Hc. left. rewrite Hs. apply (droplast_app Bt [d] 1 eq_refl). }
      split.
      + split; [exact Hs'|]. intros i Hi. rewrite Hs' in Hi.
        apply valid_app1_inv in Hi as (b & x & -> & Hb & Hx). rewrite Hg by (assumption || apply valid_1; assumption).
        apply (Hf t eq_refl). rewrite Hs. apply valid_app; [apply (bproj_compat_valid Bt B); assumption|apply valid_1; exact Hx].
      + intros ? ? [= <-] [= <-] b i Hb Hi. unfold fvec. rewrite Hs, (droplast_app Bt [d] 1 eq_refl), Hg;
          [reflexivity|exact Hb|apply valid_1; exact Hi].
    - split; [exact I|]. discriminate.
  Qed.

  (** entry of the exact product in terms of generic pieces *)
  Definition gen_entry (lv rv : option (vec K)) (M : matK) (d e : nat) (r : list nat) : K :=
    match lv, rv with
    | None, None => M (nth 0 r 0) (nth 1 r 0)
    | Some v, None => vmul d v M (nth 0 r 0)
    | None, Some w => mulv e M w (nth 0 r 0)
    | Some v, Some w => sandwich d e v M w
    end.
  Definition ridx (lv rv : option xt) (r : list nat) : nat * nat :=
    match lv, rv with
    | None, None => (nth 0 r 0, nth 1 r 0)
    | Some _, None => (0, nth 0 r 0)
    | None, Some _ => (nth 0 r 0, 0)
    | Some _, Some _ => (0, 0)
    end.

  Lemma X_entry (lv rv : option xt) Ms d e b r :
    cols K d Ms = e -> valid (out_shape lv rv d e) r ->
    chain (lpart K lv d b ++ Ms ++ rpart K rv b) (fst (ridx lv rv r)) (snd (ridx lv rv r))
    = gen_entry (option_map (fun v => fvec K v b) lv) (option_map (fun v => fvec K v b) rv) (chain Ms) d e r.
  Proof.
    intros Hc Hr. destruct lv as [v|], rv as [w|]; cbn [lpart rpart app ridx fst snd option_map gen_entry out_shape] in *.
    - rewrite chain_cons. unfold mmul, sandwich. apply bsum_ext. intros i Hi.
      rewrite (chain_app K d) by exact Hi. rewrite Hc. unfold mmul. rewrite <- bsum_mul_l.
      apply bsum_ext. intros j Hj. rewrite (chain_single K) by lia. reflexivity.
    - rewrite app_nil_r. reflexivity.
    - apply valid_cons in Hr as (i & r' & -> & Hi & Hr'). cbn [nth].
      rewrite (chain_app K d) by exact Hi. rewrite Hc. unfold mmul, mulv. apply bsum_ext. intros j Hj.
      rewrite (chain_single K) by lia. reflexivity.
    - rewrite app_nil_r. reflexivity.
  Qed.

  Lemma bundle_kind (m m1 : tseq (xnum K)) : bundle_tensors m = Ok m1 ->
    (match m1 with TOne _ => true | TMany _ => false end) = same_shapes m.
  Proof.
    destruct m as [t|[|t0 r]]; cbn [bundle_tensors same_shapes]; try (intros [= <-]; reflexivity).
    destruct (forallb _ r); [|intros [= <-]; reflexivity].
    destruct (ndim t0 <? 2); [discriminate|]. destruct (stackE 2 (t0 :: r)); [|discriminate].
    intros [= <-]. reflexivity.
  Qed.
  Lemma xmats_length (m : tseq (xnum K)) b : List.length (xmats K m b) = n_mats m.
  Proof. destruct m as [t|l]; cbn [xmats n_mats]; rewrite map_length; [apply seq_length|reflexivity]. Qed.
  Definition nan_x (m : tseq (xnum K)) (lv rv : option xt) (par : bool) (d e : nat) (b : list nat) (V : list nat -> K) : Prop :=
    if parallel m lv rv par
    then 2 <= n_mats m /\ forall i j, i < d -> j < e -> chain (xmats K m b) i j = s0
    else 2 <= n_mats m + n_vecs lv rv /\ forall r, valid (out_shape lv rv d e) r -> V r = s0.

  Lemma contract_matseq_ok (m : tseq (xnum K)) (lv rv : option xt) par B d e :
    seq_shape m d e -> vec_shape lv d -> vec_shape rv e ->
    seq_finite K m -> (forall t, lv = Some t -> tfinite K t) -> (forall t, rv = Some t -> tfinite K t) ->
    is_broadcast (vec_batches lv ++ vec_batches rv ++ seq_batches m) B ->
    exists P L, contract_matseq K m lv rv par = Ok (P, L) /\
      shp P = B ++ out_shape lv rv d e /\
      shp L = B ++ repeat 1 (List.length (out_shape lv rv d e)) /\
      forall b, valid B b ->
        let V := fun r => gen_entry
           (option_map (fun t i => fval K (get t (bproj (droplast 1 (shp t)) b ++ [i]))) lv)
           (option_map (fun t i => fval K (get t (bproj (droplast 1 (shp t)) b ++ [i]))) rv)
           (chain (xmats K m b)) d e r in
        0 < d -> 0 < e ->
        ((exists s, get L (b ++ repeat 0 (List.length (out_shape lv rv d e))) = XFin s /\
          forall r, valid (out_shape lv rv d e) r ->
            exists c, get P (b ++ r) = Fin c /\ smul c (ofR (exp s)) = V r) \/
        (forall r, valid (out_shape lv rv d e) r -> get P (b ++ r) = Bad /\ V r = s0)) /\
        (nan_x m lv rv par d e b V -> forall r, valid (out_shape lv rv d e) r -> get P (b ++ r) = Bad) /\
        (~ nan_x m lv rv par d e b V -> exists s, get L (b ++ repeat 0 (List.length (out_shape lv rv d e))) = XFin s /\
          forall r, valid (out_shape lv rv d e) r ->
            exists c, get P (b ++ r) = Fin c /\ smul c (ofR (exp s)) = V r).
  Proof.
    intros Hm Hlv Hrv Hf Hfl Hfr Hb.
    destruct (bundle_ok K m d e Hm Hf) as (m1 & E1 & Hm1 & Hf1 & Hce1 & Hb1 & Hnd1).
    rewrite app_assoc in Hb. specialize (Hb1 _ _ Hb). rewrite <- app_assoc in Hb1.
    destruct (bcast_inputs_ok K lv rv m1 B d e Hm1 Hlv Hrv Hb1) as (lv' & rv' & m' & E2 & Hol & Hor & Hsb).
    assert (Hcomp : forall s, In s (vec_batches lv ++ vec_batches rv ++ seq_batches m1) -> bc_compat s B)
      by (intros s Hs; apply (is_broadcast_compat _ _ _ Hb1 Hs)).
    destruct (sbout_ok B m1 m' d e Hm1 Hf1) as (Hbs & Hbf & Hbm);
      [intros s Hs; apply Hcomp; rewrite !in_app_iff; auto|exact Hsb|].
    destruct (obout_ok B lv lv' d Hlv Hfl) as (Hbl & Hvl); [intros s Hs; apply Hcomp; rewrite !in_app_iff; auto|exact Hol|].
    destruct (obout_ok B rv rv' e Hrv Hfr) as (Hbr & Hvr); [intros s Hs; apply Hcomp; rewrite !in_app_iff; auto|exact Hor|].
    pose proof (contract_unfold m lv rv par m1 lv' rv' m' E1 Hnd1 E2) as EC. cbv zeta in EC. rewrite EC. clear EC.
    set (up := (match m1 with TOne _ => true | TMany _ => false end) && (par || (negb (some_ lv) && negb (some_ rv)))) in *.
    destruct (reduce_ok K up B d e lv' rv' m' Hbl Hbr Hbs Hbf) as (P & L & ER & HP & HL & HR).
    { intros ->. destruct m1 as [|l]; simpl in Hsb; [contradiction|]. inversion Hsb; subst.
      destruct lv, lv', rv, rv'; simpl in Hol, Hor; try contradiction; try (left; discriminate); try (right; discriminate).
      exfalso. destruct Hb1 as [Hb1 _]. apply Hb1. reflexivity. }
    { intros Hnv t ->. destruct m1 as [t1|]; [|simpl in Hsb; contradiction]. unfold up.
      rewrite (some_obout B lv lv' Hol), (some_obout B rv rv' Hor) in Hnv. rewrite Hnv, orb_true_r. reflexivity. }
    rewrite (some_obout B lv lv' Hol), (some_obout B rv rv' Hor) in ER.
    rewrite ER. cbn [rbind].
    eexists _, _. split; [reflexivity|].
    assert (Hshape : forall (A : Type) (T : tensor A) d e,
        shp T = B ++ [rows K lv' d; rows K rv' e] ->
        let T' := (if some_ rv then squeezeE 0 else fun t => t) ((if some_ lv then squeezeE 1 else fun t => t) T) in
        shp T' = B ++ out_shape lv rv d e /\
        forall b r, List.length b = List.length B -> List.length r = List.length (out_shape lv rv d e) ->
          get T' (b ++ r) = get T (b ++ [fst (ridx lv rv r); snd (ridx lv rv r)])).
    { intros A T d0 e0 HT. destruct lv, lv', rv, rv'; simpl in Hol, Hor; try contradiction;
        cbn [some_ rows out_shape ridx fst snd] in *; cbv zeta.
      - pose proof (squeezeE1_shp T B 1 HT) as H1. split; [rewrite app_nil_r; apply squeezeE0_shp, H1|].
        intros b r _ Hr. destruct r; [|discriminate]. rewrite app_nil_r.
        rewrite (squeezeE0_get _ B b H1), (squeezeE1_get T B 1 b 0 HT). reflexivity.
      - split; [apply squeezeE1_shp, HT|].
        intros b r _ Hr. destruct r as [|j [|]]; try discriminate. rewrite (squeezeE1_get T B e0 b j HT). reflexivity.
      - assert (HT' : shp T = (B ++ [d0]) ++ [1]) by (rewrite <- app_assoc; exact HT).
        split; [apply squeezeE0_shp, HT'|].
        intros b r _ Hr. destruct r as [|j [|]]; try discriminate. rewrite (squeezeE0_get T (B ++ [d0]) _ HT').
        rewrite <- app_assoc. reflexivity.
      - split; [exact HT|]. intros b r _ Hr. destruct r as [|i [|j [|]]]; try discriminate. reflexivity. }
    assert (HL1 : shp L = B ++ [rows K lv' 1; rows K rv' 1]).
    { rewrite HL. destruct lv', rv'; reflexivity. }
    destruct (Hshape _ P d e HP) as [HsP HgP]. destruct (Hshape _ L 1 1 HL1) as [HsL HgL].
    assert (Hones : out_shape lv rv 1 1 = repeat 1 (List.length (out_shape lv rv d e))) by (destruct lv, rv; reflexivity).
    split; [exact HsP|]. split; [rewrite HsL, Hones; reflexivity|].
    intros b Hbv. cbv zeta.
    set (V := fun r => gen_entry
           (option_map (fun t i => fval K (get t (bproj (droplast 1 (shp t)) b ++ [i]))) lv)
           (option_map (fun t i => fval K (get t (bproj (droplast 1 (shp t)) b ++ [i]))) rv)
           (chain (xmats K m b)) d e r).
    destruct (Hbm b Hbv) as [Hce Hcols].
    assert (HV : forall r, valid (out_shape lv rv d e) r ->
       chain (lpart K lv' d b ++ bmats K m' b ++ rpart K rv' b) (fst (ridx lv rv r)) (snd (ridx lv rv r)) = V r).
    { intros r Hr.
      assert (Hro : out_shape lv' rv' d e = out_shape lv rv d e /\ ridx lv' rv' r = ridx lv rv r).
      { destruct lv, lv', rv, rv'; simpl in Hol, Hor; try contradiction; split; reflexivity. }
      destruct Hro as [Ho1 Ho2]. rewrite <- Ho2.
      rewrite (X_entry lv' rv' (bmats K m' b) d e b r Hcols) by (rewrite Ho1; exact Hr).
      assert (HM : forall i j, i < d -> chain (bmats K m' b) i j = chain (xmats K m b) i j).
      { intros i j Hi. apply (chain_eq_chain K d); [|exact Hi]. apply (chain_eq_trans K d _ (xmats K m1 b)); [exact Hce|apply Hce1]. }
      unfold V. clear - Hvl Hvr HM Hr Hol Hor Hbv Hlv Hrv.
      destruct lv as [v|], lv' as [v'|], rv as [w|], rv' as [w'|]; simpl in Hol, Hor; try contradiction;
        cbn [option_map gen_entry out_shape] in *.
      - unfold sandwich. apply bsum_ext. intros i Hi. apply bsum_ext. intros j Hj.
        rewrite (Hvl v v') by auto. rewrite (Hvr w w') by auto. rewrite HM by exact Hi. reflexivity.
      - unfold vmul. apply bsum_ext. intros i Hi. rewrite (Hvl v v') by auto. rewrite HM by exact Hi. reflexivity.
      - apply valid_cons in Hr as (i & r' & -> & Hi & _). cbn [nth]. unfold mulv. apply bsum_ext. intros j Hj.
        rewrite (Hvr w w') by auto. rewrite HM by exact Hi. reflexivity.
      - apply valid_cons in Hr as (i & r' & -> & Hi & Hr'). apply valid_cons in Hr' as (j & r'' & -> & Hj & _).
        cbn [nth]. apply HM; exact Hi. }
    assert (Hri : forall r, valid (out_shape lv rv d e) r ->
       fst (ridx lv rv r) < rows K lv' d /\ snd (ridx lv rv r) < rows K rv' e).
    { intros r Hr. clear - Hol Hor Hr. destruct lv, lv', rv, rv'; simpl in Hol, Hor; try contradiction;
        cbn [out_shape ridx rows fst snd] in *.
      - lia.
      - apply valid_cons in Hr as (i & r' & -> & Hi & _). cbn [nth]. lia.
      - apply valid_cons in Hr as (i & r' & -> & Hi & _). cbn [nth]. lia.
      - apply valid_cons in Hr as (i & r' & -> & Hi & Hr'). apply valid_cons in Hr' as (j & r'' & -> & Hj & _). cbn [nth]. lia. }
    intros Hd He. pose proof (valid_length _ _ Hbv) as Hblen.
    pose proof (HR b Hbv Hd He) as Hex.
    assert (Hcond : lostx K up lv' rv' m' d e b <-> nan_x m lv rv par d e b V).
    { pose proof (chain_eq_trans K d _ _ _ Hce (Hce1 b)) as Hce2.
      pose proof (chain_eq_length K _ _ _ Hce2) as Hlen. rewrite xmats_length in Hlen.
      assert (Hup : up = parallel m lv rv par).
      { unfold up, parallel. rewrite (bundle_kind m m1 E1). f_equal. f_equal. destruct lv, rv; reflexivity. }
      assert (Hnv : List.length (opt_list lv') + List.length (opt_list rv') = n_vecs lv rv).
      { clear - Hol Hor. destruct lv, lv', rv, rv'; simpl in Hol, Hor; try contradiction; reflexivity. }
      assert (Hz1 : zeromat K (rows K lv' d) (rows K rv' e) (chain (lpart K lv' d b ++ bmats K m' b ++ rpart K rv' b)) <->
                    forall r, valid (out_shape lv rv d e) r -> V r = s0).
      { split.
        - intros Hz r Hr. rewrite <- HV by exact Hr. apply Hz; apply Hri, Hr.
        - intros Hz i j Hi Hj.
          assert (Hr : exists r, valid (out_shape lv rv d e) r /\ ridx lv rv r = (i, j)).
          { clear - Hol Hor Hi Hj. destruct lv, lv', rv, rv'; simpl in Hol, Hor; try contradiction; cbn [rows out_shape ridx] in *.
            - exists []. split; [constructor|]. assert (i = 0) by lia. assert (j = 0) by lia. subst; reflexivity.
            - exists [j]. split; [apply valid_1, Hj|]. assert (i = 0) by lia. subst; reflexivity.
            - exists [i]. split; [apply valid_1, Hi|]. assert (j = 0) by lia. subst; reflexivity.
            - exists [i; j]. split; [apply valid_2; auto|reflexivity]. }
          destruct Hr as (r & Hr & Er). pose proof (HV r Hr) as E. rewrite Er in E. cbn [fst snd] in E.
          rewrite E. apply Hz, Hr. }
      assert (Hz2 : zeromat K d e (chain (bmats K m' b)) <-> forall i j, i < d -> j < e -> chain (xmats K m b) i j = s0).
      { split; intros Hz i j Hi Hj; [rewrite <- (chain_eq_chain K d _ _ i j Hce2 Hi)|rewrite (chain_eq_chain K d _ _ i j Hce2 Hi)];
          apply Hz; assumption. }
      unfold nan_x. rewrite <- Hup. clear - Hlen Hnv Hz1 Hz2 Hsb Hup E1 Hm1.
      assert (Hkind : up = true -> exists t, m' = TOne t).
      { intros ->. symmetry in Hup. unfold parallel in Hup. apply andb_true_iff in Hup as [Hk _].
        rewrite <- (bundle_kind m m1 E1) in Hk. destruct m1; [|discriminate]. destruct m' as [t'|]; [|simpl in Hsb; contradiction].
        exists t'. reflexivity. }
      unfold lostx. destruct up.
      - destruct (Hkind eq_refl) as [t ->]. cbn [bmats] in Hlen, Hz2 |- *. unfold slices in Hlen. rewrite map_length, seq_length in Hlen.
        split; intros [HA HB]; (split; [lia|apply Hz2, HB]).
      - rewrite Hz1, Hlen, <- Nat.add_assoc, Hnv. reflexivity. }
    assert (Hdi : dich K P L b (rows K lv' d) (rows K rv' e) (chain (lpart K lv' d b ++ bmats K m' b ++ rpart K rv' b)))
      by (apply (exactly_dich K (lostx K up lv' rv' m' d e b)); [apply lostx_dec|exact Hex]).
    assert (Hfin : rep K P L b (rows K lv' d) (rows K rv' e) (chain (lpart K lv' d b ++ bmats K m' b ++ rpart K rv' b)) ->
      exists s, get ((if some_ rv then squeezeE 0 else fun t => t) ((if some_ lv then squeezeE 1 else fun t => t) L))
                 (b ++ repeat 0 (List.length (out_shape lv rv d e))) = XFin s /\
          forall r, valid (out_shape lv rv d e) r ->
            exists c, get ((if some_ rv then squeezeE 0 else fun t => t) ((if some_ lv then squeezeE 1 else fun t => t) P)) (b ++ r)
              = Fin c /\ smul c (ofR (exp s)) = V r).
    { intros (s & C & Hs & HC & HX). exists s. split.
      + rewrite HgL; [|exact Hblen|rewrite repeat_length; destruct lv, rv; reflexivity].
        rewrite <- Hs. f_equal. f_equal. clear. destruct lv, rv; reflexivity.
      + intros r Hr. destruct (Hri r Hr) as [H1 H2]. exists (C (fst (ridx lv rv r)) (snd (ridx lv rv r))).
        split.
        * rewrite HgP; [|exact Hblen|apply valid_length, Hr]. apply HC; assumption.
        * rewrite HX by assumption. apply HV, Hr. }
    split; [|split].
    2:{ intros Hc r Hr. destruct Hex as [Hex _]. destruct (Hex (proj2 Hcond Hc)) as [Hbad _].
        destruct (Hri r Hr) as [H1 H2]. rewrite HgP; [|exact Hblen|apply valid_length, Hr]. apply Hbad; assumption. }
    2:{ intros Hc. apply Hfin. apply Hex. intros Hx. apply Hc, Hcond, Hx. }
    destruct Hdi as [Hrp|[Hbad Hz]].
    - left. apply Hfin, Hrp.
    - right. intros r Hr. destruct (Hri r Hr) as [H1 H2]. split.
      + rewrite HgP; [|exact Hblen|apply valid_length, Hr]. apply Hbad; assumption.
      + rewrite <- HV by exact Hr. apply Hz; assumption.
  Qed.

  (** specification-level versions *)
  Lemma tfinite_lift (t : tensor K) : tfinite K (tlift t).
  Proof. intros i _. exists (get t i). reflexivity. Qed.
  Lemma seq_finite_lift (m : tseq K) : seq_finite K (tslift m).
  Proof.
    destruct m as [t|l]; [apply tfinite_lift|]. cbn. apply Forall_forall. intros t Ht.
    apply in_map_iff in Ht as (u & <- & _). apply tfinite_lift.
  Qed.
  Lemma seq_shape_lift (m : tseq K) d e : seq_shape m d e -> seq_shape (tslift m) d e.
  Proof.
    destruct m as [t|l]; [exact (fun H => H)|]. cbn. induction 1 as [|B d n e t ts Hs H IH]; [constructor|].
    cbn. apply (compat_cons B d n); [exact Hs|exact IH].
  Qed.
  Lemma seq_batches_lift (m : tseq K) : seq_batches (tslift m) = seq_batches m.
  Proof. destruct m as [t|l]; [reflexivity|]. cbn. rewrite map_map. reflexivity. Qed.
  Lemma vec_batches_lift (v : option (tensor K)) : vec_batches (option_map tlift v) = vec_batches v.
  Proof. destruct v; reflexivity. Qed.
  Lemma vec_shape_lift (v : option (tensor K)) d : vec_shape v d -> vec_shape (option_map tlift v) d.
  Proof. destruct v; exact (fun H => H). Qed.
  Lemma out_shape_lift (lv rv : option (tensor K)) d e :
    out_shape (option_map tlift lv) (option_map tlift rv) d e = out_shape lv rv d e.
  Proof. destruct lv, rv; reflexivity. Qed.
  Lemma xmats_lift (m : tseq K) b : xmats K (tslift m) b = seq_mats m b.
  Proof. destruct m as [t|l]; [reflexivity|]. cbn. rewrite map_map. reflexivity. Qed.

  Definition exactK (m : tseq K) lv rv d e b r : K := exact_entry m lv rv d e b r.

  Theorem contract_matseq_dichotomy (m : tseq K) (lv rv : option (tensor K)) par B d e :
    seq_shape m d e -> vec_shape lv d -> vec_shape rv e ->
    is_broadcast (vec_batches lv ++ vec_batches rv ++ seq_batches m) B ->
    exists P L, contract_matseq K (tslift m) (option_map tlift lv) (option_map tlift rv) par = Ok (P, L) /\
      shp P = B ++ out_shape lv rv d e /\
      shp L = B ++ repeat 1 (List.length (out_shape lv rv d e)) /\
      forall b, valid B b -> 0 < d -> 0 < e ->
        ((exists s, get L (b ++ repeat 0 (List.length (out_shape lv rv d e))) = XFin s /\
          forall r, valid (out_shape lv rv d e) r ->
            exists c, get P (b ++ r) = Fin c /\ smul c (ofR (exp s)) = exactK m lv rv d e b r) \/
        (forall r, valid (out_shape lv rv d e) r ->
            get P (b ++ r) = Bad /\ exactK m lv rv d e b r = s0)) /\
        (nan_case m lv rv par d e b -> forall r, valid (out_shape lv rv d e) r -> get P (b ++ r) = Bad) /\
        (~ nan_case m lv rv par d e b -> exists s, get L (b ++ repeat 0 (List.length (out_shape lv rv d e))) = XFin s /\
          forall r, valid (out_shape lv rv d e) r ->
            exists c, get P (b ++ r) = Fin c /\ smul c (ofR (exp s)) = exactK m lv rv d e b r) /\
        (par = false -> lv <> None -> rv <> None -> exactK m lv rv d e b [] = s0 -> get P b = Bad).
  Proof.
    intros Hm Hlv Hrv Hb.
    destruct (contract_matseq_ok (tslift m) (option_map tlift lv) (option_map tlift rv) par B d e) as (P & L & E & HP & HL & H).
    - apply seq_shape_lift, Hm.
    - apply vec_shape_lift, Hlv.
    - apply vec_shape_lift, Hrv.
    - apply seq_finite_lift.
    - intros t Ht. destruct lv; [|discriminate]. injection Ht as <-. apply tfinite_lift.
    - intros t Ht. destruct rv; [|discriminate]. injection Ht as <-. apply tfinite_lift.
    - rewrite !vec_batches_lift, seq_batches_lift. exact Hb.
    - rewrite out_shape_lift in *. exists P, L. split; [exact E|]. split; [exact HP|]. split; [exact HL|].
      intros b Hbv Hd He. specialize (H b Hbv). cbv zeta in H. rewrite xmats_lift in H.
      assert (HV : forall r, gen_entry
           (option_map (fun t i => fval K (get t (bproj (droplast 1 (shp t)) b ++ [i]))) (option_map tlift lv))
           (option_map (fun t i => fval K (get t (bproj (droplast 1 (shp t)) b ++ [i]))) (option_map tlift rv))
           (chain (seq_mats m b)) d e r = exactK m lv rv d e b r).
      { intros r. destruct lv, rv; reflexivity. }
      destruct (H Hd He) as (Hdi & Hnan & Hfin).
      assert (Hcond : nan_case m lv rv par d e b <-> nan_x (tslift m) (option_map tlift lv) (option_map tlift rv) par d e b
        (fun r => gen_entry
           (option_map (fun t i => fval K (get t (bproj (droplast 1 (shp t)) b ++ [i]))) (option_map tlift lv))
           (option_map (fun t i => fval K (get t (bproj (droplast 1 (shp t)) b ++ [i]))) (option_map tlift rv))
           (chain (seq_mats m b)) d e r)).
      { unfold nan_case, nan_x. rewrite xmats_lift, out_shape_lift.
        assert (Hn : n_mats (tslift m) = n_mats m) by (destruct m; cbn; [reflexivity|apply map_length]).
        assert (Hvn : n_vecs (option_map (@tlift K) lv) (option_map (@tlift K) rv) = n_vecs lv rv) by (destruct lv, rv; reflexivity).
        assert (Hss : same_shapes (tslift m) = same_shapes m).
        { destruct m as [t|[|t l]]; try reflexivity. cbn [tslift map same_shapes]. clear.
          induction l as [|u l IH]; [reflexivity|]. cbn [map forallb]. rewrite IH. reflexivity. }
        unfold parallel. rewrite Hn, Hvn, Hss. destruct (same_shapes m && (par || (n_vecs lv rv =? 0))); [reflexivity|].
        split; intros [H1 H2]; (split; [exact H1|]); intros r Hr; [rewrite HV|pose proof (H2 r Hr) as H3; cbv beta in H3; rewrite HV in H3];
          auto. }
      split; [|split; [|split]].
      2:{ intros Hc. apply Hnan, Hcond, Hc. }
      2:{ intros Hc. destruct Hfin as (s & Hs & Hr); [intros Hx; apply Hc, Hcond, Hx|]. exists s. split; [exact Hs|].
          intros r Hv. destruct (Hr r Hv) as (c & Hc1 & Hc2). exists c. split; [exact Hc1|]. rewrite <- HV. exact Hc2. }
      2:{ intros -> Hl Hr Hx. rewrite <- (app_nil_r b) at 1. destruct lv as [v|]; [|congruence]. destruct rv as [w|]; [|congruence].
          apply Hnan; [|constructor]. apply Hcond. unfold nan_case, parallel. cbn [n_vecs Nat.eqb orb]. rewrite andb_false_r.
          split; [lia|]. intros r Hv. cbn [out_shape] in Hv. inversion Hv; subst. exact Hx. }
      destruct Hdi as [(s & Hs & Hc)|Hbad]; [left|right].
      + exists s. split; [exact Hs|]. intros r Hr. destruct (Hc r Hr) as (c & Hcc & Hcx).
        exists c. split; [exact Hcc|]. rewrite <- HV. exact Hcx.
      + intros r Hr. rewrite <- HV. apply Hbad, Hr.
  Qed.

  Lemma exact_dims m lv rv d e b r : valid (out_shape lv rv d e) r ->
    exactK m lv rv d e b r <> s0 -> 0 < d /\ 0 < e.
  Proof.
    unfold exactK, exact_entry. cbv zeta. intros Hr Hn.
    destruct lv as [v|], rv as [w|]; cbn [out_shape] in Hr.
    - destruct d as [|d]; [elim Hn; reflexivity|]. destruct e as [|e]; [|lia].
      elim Hn. unfold sandwich. apply bsum_zero. reflexivity.
    - apply valid_cons in Hr as (i & r' & -> & Hi & _). destruct d; [elim Hn; reflexivity|lia].
    - apply valid_cons in Hr as (i & r' & -> & Hi & _). destruct e; [elim Hn; reflexivity|lia].
    - apply valid_cons in Hr as (i & r' & -> & Hi & Hr'). apply valid_cons in Hr' as (j & r'' & -> & Hj & _). lia.
  Qed.

  Theorem contract_matseq_exact (m : tseq K) (lv rv : option (tensor K)) par B d e :
    seq_shape m d e -> vec_shape lv d -> vec_shape rv e ->
    is_broadcast (vec_batches lv ++ vec_batches rv ++ seq_batches m) B ->
    exists P L, contract_matseq K (tslift m) (option_map tlift lv) (option_map tlift rv) par = Ok (P, L) /\
      shp P = B ++ out_shape lv rv d e /\
      shp L = B ++ repeat 1 (List.length (out_shape lv rv d e)) /\
      forall b, valid B b ->
        (exists r, valid (out_shape lv rv d e) r /\ exactK m lv rv d e b r <> s0) ->
        exists s, get L (b ++ repeat 0 (List.length (out_shape lv rv d e))) = XFin s /\
          forall r, valid (out_shape lv rv d e) r ->
            exists c, get P (b ++ r) = Fin c /\ smul c (ofR (exp s)) = exactK m lv rv d e b r.
  Proof.
    intros Hm Hlv Hrv Hb.
    destruct (contract_matseq_dichotomy m lv rv par B d e Hm Hlv Hrv Hb) as (P & L & E & HP & HL & H).
    exists P, L. split; [exact E|]. split; [exact HP|]. split; [exact HL|].
    intros b Hbv (r & Hr & Hn). destruct (exact_dims _ _ _ _ _ _ _ Hr Hn) as [Hd He].
    destruct (H b Hbv Hd He) as [[Hx|Hbad] _]; [exact Hx|].
    exfalso. apply Hn. apply Hbad, Hr.
  Qed.

  Theorem contract_matseq_value_exact (m : tseq K) (lv rv : option (tensor K)) par B d e :
    seq_shape m d e -> vec_shape lv d -> vec_shape rv e ->
    is_broadcast (vec_batches lv ++ vec_batches rv ++ seq_batches m) B ->
    exists V, contract_matseq_value K (tslift m) (option_map tlift lv) (option_map tlift rv) par = Ok V /\
      shp V = B ++ out_shape lv rv d e /\
      forall b, valid B b ->
        (exists r, valid (out_shape lv rv d e) r /\ exactK m lv rv d e b r <> s0) ->
        forall r, valid (out_shape lv rv d e) r -> get V (b ++ r) = Fin (exactK m lv rv d e b r).
  Proof.
    intros Hm Hlv Hrv Hb.
    destruct (contract_matseq_exact m lv rv par B d e Hm Hlv Hrv Hb) as (P & L & E & HP & HL & H).
    unfold contract_matseq_value. rewrite E. cbn [rbind fst snd]. unfold tzip. cbn [tmap shp]. rewrite HP, HL, bcast_ones_r.
    eexists. split; [reflexivity|]. split; [reflexivity|].
    intros b Hbv Hnz r Hr. destruct (H b Hbv Hnz) as (s & Hs & Hc). destruct (Hc r Hr) as (c & HPc & Hcx).
    cbn [get tmap]. rewrite bproj_self by (apply valid_app; assumption).
    rewrite HPc. replace (List.length (out_shape lv rv d e)) with (List.length r) by apply (valid_length _ _ Hr).
    rewrite bproj_ones by exact Hbv.
    rewrite (valid_length _ _ Hr), Hs. cbn [xexp xmulr]. rewrite Hcx. reflexivity.
  Qed.
End Final.
