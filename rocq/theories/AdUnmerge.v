(** * AdUnmerge: splitting the merged cores *)
From Coq Require Import Reals Lra Permutation.
From Verif Require Import Base Scalars Tensor Spec LinAlg Utils2Proofs Contractables Utils UtilsSpec UtilsProofs SvdProofs SvdFinal P_Svd TorchMps TmSpec TmProofs TmFinal Adaptive AdMerge AdSweep AdKinds AdSplit AdSpec P_Mps3.

Lemma count_prefix cutoff f n p : p < n -> (forall q, q <= p -> (cutoff <= f q)%R) -> p < count_ge cutoff f n.
Proof.
  intros Hp Hq. assert (E : count_ge cutoff f (S p) = S p).
  { clear Hp. induction p as [|p IH]; cbn [count_ge] in *.
    - destruct (Rle_dec cutoff (f 0%nat)) as [|X]; [reflexivity|]. exfalso. apply X, Hq. lia.
    - rewrite IH by (intros q H; apply Hq; lia). destruct (Rle_dec cutoff (f (S p))) as [|X]; [lia|]. exfalso. apply X, Hq. lia. }
  replace n with (S p + (n - S p)) by lia. rewrite count_ge_app, E. lia.
Qed.

(** *** norms *)
Lemma fold_nonneg (f : list nat -> R) l : (0 <= fold_right Rplus 0 (map (fun i => f i * f i) l))%R.
Proof. induction l as [|x l IH]; cbn [map fold_right]; [lra|]. pose proof (Rle_0_sqr (f x)) as Hx. unfold Rsqr in Hx. lra. Qed.
Lemma norm_pos t : nonzero t -> (0 < norm t)%R.
Proof.
  intros (idx & Hv & Hn). unfold norm. apply sqrt_lt_R0. apply all_idx_spec in Hv.
  assert (G : forall l, In idx l -> (0 < fold_right Rplus 0 (map (fun i => get t i * get t i) l))%R); [|exact (G _ Hv)]. clear Hv.
  induction l as [|x l IH]; intros Hv; [destruct Hv|]. cbn [map fold_right]. destruct Hv as [->|Hv].
  - apply Rplus_lt_le_0_compat; [apply (Rsqr_pos_lt _ Hn)|apply (fold_nonneg (get t) l)].
  - apply Rplus_le_lt_0_compat; [apply (Rle_0_sqr (get t x))|apply IH; exact Hv].
Qed.
Lemma norm_nonneg t : (0 <= norm t)%R. Proof. apply sqrt_pos. Qed.
Definition nz (m : module R_cring) : Prop := Forall (fun x => (0 < x)%R) (get_norm m).
Lemma nth_flat2 {A B} (f g : A -> B) (l : list A) d a s : s < List.length l ->
  nth (2 * s) (flat_map (fun p => [f p; g p]) l) d = f (nth s l a) /\ nth (2 * s + 1) (flat_map (fun p => [f p; g p]) l) d = g (nth s l a).
Proof.
  revert s. induction l as [|x l IH]; intros s Hs; [cbn in Hs; lia|]. destruct s as [|s]; [split; reflexivity|].
  cbn [List.length] in Hs. replace (2 * S s) with (S (S (2 * s))) by lia. cbn [flat_map app nth Nat.add]. apply IH. lia.
Qed.
Lemma length_flat2 {A B} (f g : A -> B) (l : list A) : List.length (flat_map (fun p => [f p; g p]) l) = 2 * List.length l.
Proof. induction l as [|x l IH]; [reflexivity|]. cbn [flat_map app List.length]. rewrite IH. lia. Qed.

Section U.
  Notation K := R_cring.
  Notation T := (tensor R_ops).
  Notation mod_ := (module R_cring).
  Variable svd : T -> T * T * T.
  Variables D F O : nat.
  Hypotheses (HD : 0 < D) (HF : 0 < F) (HO : 0 < O).
  Variable cutoff : R.
  Hypothesis Hcut : (0 < cutoff)%R.
  Notation sizes := (sizes D F O).
  Notation nsv := (nsv D F O).
  Notation spectrum := (spectrum svd D F O).
  Notation truncated := (truncated svd D F O cutoff).
  (** no singular value other than 0 is dropped *)
  Definition full (p : pair_type) (S : T) : Prop := forall k, k < nsv p -> D <= k \/ (get S [k] < cutoff)%R -> get S [k] = 0%R.
  Definition kept (p : pair_type) (S : T) (d : nat) (v : T) : Prop :=
    d = count_ge cutoff (fun k => get S [k]) (Nat.min D (nsv p)) /\ 1 <= d <= D /\
    shp v = [D] /\ (forall k, k < D -> get v [k] = if k <? nsv p then get S [k] else 0%R).
  Lemma split_any p t S : spectrum p t S -> (cutoff <= get S [0%nat])%R ->
    exists A B d v, svd_flex svd t (split_string p) (Some D) cutoff true (Some D) = Ok (A, B, d, Some v) /\
      kept p S d v /\ shp A = map (upd sizes "u" D) (axes1 p) /\ shp B = map (upd sizes "u" D) (axes2 p) /\
      nonzero A /\ nonzero B /\
      exists t', truncated p t t' /\
      (forall sg, within_sizes sizes sg (axes p) ->
        bsum (S := R_ops) D (fun k => (get A (map (upd sg "u" k) (axes1 p)) * get B (map (upd sg "u" k) (axes2 p)))%R) = get t' (map sg (axes p))) /\
      (full p S -> forall sg, within_sizes sizes sg (axes p) -> get t' (map sg (axes p)) = get t (map sg (axes p))).
  Proof.
    intros (U & V & H) Hs.
    assert (Hk : Nat.min (volume (map sizes (remove ascii_dec "u"%char (axes1 p)))) (volume (map sizes (remove ascii_dec "u"%char (axes2 p)))) = nsv p).
    { destruct p; cbn; rewrite ?Nat.add_0_r; [lia|reflexivity|reflexivity]. }
    assert (Hm : 0 < volume (map sizes (remove ascii_dec "u"%char (axes1 p)))) by (destruct p; cbn; rewrite ?Nat.add_0_r; nia).
    assert (Hn : 0 < volume (map sizes (remove ascii_dec "u"%char (axes2 p)))) by (destruct p; cbn; rewrite ?Nat.add_0_r; nia).
    destruct (split_pair svd t sizes _ _ _ _ _ U S V H D cutoff HD Hm Hn Hcut Hs) as (A & B & d & v & E & Ed & Hd & SA & SB & Sv & Gv & NA & NB & Ex1 & Ex).
    rewrite Hk in *. exists A, B, d, v. split; [exact E|]. split; [split; [exact Ed|]; split; [exact Hd|]; split; assumption|].
    split; [exact SA|]. split; [exact SB|]. split; [exact NA|]. split; [exact NB|].
    exists (mkT (shp t) (fun idx => bsum (S := R_ops) d (fun q => (get U [position (map sizes (row_axes p)) (map (reading (axes p) idx) (row_axes p)); q] * get S [q] * get V [position (map sizes (col_axes p)) (map (reading (axes p) idx) (col_axes p)); q])%R))).
    assert (Rd : forall sg, map (reading (axes p) (map sg (axes p))) (row_axes p) = map sg (row_axes p) /\ map (reading (axes p) (map sg (axes p))) (col_axes p) = map sg (col_axes p)) by (intros sg; destruct p; split; reflexivity).
    assert (Ra : remove ascii_dec "u"%char (axes1 p) = row_axes p /\ remove ascii_dec "u"%char (axes2 p) = col_axes p) by (destruct p; split; reflexivity). destruct Ra as [Ra Rb]. rewrite Ra, Rb in Ex1, Ex.
    split; [|split].
    { exists U, S, V. split; [exact H|]. split; [reflexivity|]. intros sg Hsg. cbn [get]. destruct (Rd sg) as [-> ->]. rewrite Ed. reflexivity. }
    { intros sg Hsg. rewrite (Ex1 sg Hsg). cbn [get]. destruct (Rd sg) as [-> ->]. reflexivity. }
    intros Hfull sg Hsg. cbn [get]. destruct (Rd sg) as [-> ->]. apply Ex; [|exact Hsg]. intros q Hdq Hqk.
    apply Hfull; [exact Hqk|]. destruct (Nat.le_gt_cases D q) as [|Hq]; [left; assumption|right].
    destruct (Rlt_le_dec (get S [q]) cutoff) as [|X]; [assumption|exfalso].
    assert (Hc : q < count_ge cutoff (fun k => get S [k]) (Nat.min D (nsv p))).
    { apply count_prefix; [lia|]. intros q' Hq'.
      destruct H as [Hl HT HU HS HV Hsvd]. destruct (matrix_exists t sizes _ _ _ _ _ Hl HT) as (M & HM). destruct (Hsvd M HM) as [_ Hd'].
      pose proof (svd_desc _ _ _ _ _ _ Hd' q' q Hq') as Hle. rewrite Hk in Hle. specialize (Hle Hqk). cbn beta in Hle. lra. }
    lia.
  Qed.
  (** the three cases *)
  Lemma split_in t S : spectrum TwoInputs t S -> (cutoff <= get S [0%nat])%R ->
    exists A B d v, svd_flex svd t "lrij->lui,urj" (Some D) cutoff true (Some D) = Ok (A, B, d, Some v) /\
      kept TwoInputs S d v /\ shp A = [D; D; F] /\ shp B = [D; D; F] /\ nonzero A /\ nonzero B /\
      exists t', truncated TwoInputs t t' /\
      (forall l r i j, l < D -> r < D -> i < F -> j < F -> get t' [l; r; i; j] = bsum (S := R_ops) D (fun k => (get A [l; k; i] * get B [k; r; j])%R)) /\
      (full TwoInputs S -> forall l r i j, l < D -> r < D -> i < F -> j < F -> get t' [l; r; i; j] = get t [l; r; i; j]).
  Proof.
    intros H Hs. destruct (split_any TwoInputs t S H Hs) as (A & B & d & v & E & Kv & SA & SB & NA & NB & t' & Ct & Ex & Ef).
    exists A, B, d, v. split; [exact E|]. split; [exact Kv|]. split; [exact SA|]. split; [exact SB|]. split; [exact NA|]. split; [exact NB|]. exists t'. split; [exact Ct|].
    assert (W : forall l r i j, l < D -> r < D -> i < F -> j < F -> within_sizes sizes (reading (axes TwoInputs) [l; r; i; j]) (axes TwoInputs)).
    { intros l r i j Hl Hr Hi Hj x Hx. cbn in Hx. destruct Hx as [<-|[<-|[<-|[<-|[]]]]]; assumption. }
    split; [intros l r i j Hl Hr Hi Hj; specialize (W l r i j Hl Hr Hi Hj); symmetry; exact (Ex _ W)|]. intros Hf l r i j Hl Hr Hi Hj. exact (Ef Hf _ (W l r i j Hl Hr Hi Hj)).
  Qed.
  Lemma split_io t S : spectrum InputOutput t S -> (cutoff <= get S [0%nat])%R ->
    exists A B d v, svd_flex svd t "olri->our,lui" (Some D) cutoff true (Some D) = Ok (A, B, d, Some v) /\
      kept InputOutput S d v /\ shp A = [O; D; D] /\ shp B = [D; D; F] /\ nonzero A /\ nonzero B /\
      exists t', truncated InputOutput t t' /\
      (forall o l r i, o < O -> l < D -> r < D -> i < F -> get t' [o; l; r; i] = bsum (S := R_ops) D (fun k => (get B [l; k; i] * get A [o; k; r])%R)) /\
      (full InputOutput S -> forall o l r i, o < O -> l < D -> r < D -> i < F -> get t' [o; l; r; i] = get t [o; l; r; i]).
  Proof.
    intros H Hs. destruct (split_any InputOutput t S H Hs) as (A & B & d & v & E & Kv & SA & SB & NA & NB & t' & Ct & Ex & Ef).
    exists A, B, d, v. split; [exact E|]. split; [exact Kv|]. split; [exact SA|]. split; [exact SB|]. split; [exact NA|]. split; [exact NB|]. exists t'. split; [exact Ct|].
    assert (W : forall o l r i, o < O -> l < D -> r < D -> i < F -> within_sizes sizes (reading (axes InputOutput) [o; l; r; i]) (axes InputOutput)).
    { intros o l r i Ho Hl Hr Hi x Hx. cbn in Hx. destruct Hx as [<-|[<-|[<-|[<-|[]]]]]; assumption. }
    split; [intros o l r i Ho Hl Hr Hi; specialize (W o l r i Ho Hl Hr Hi); symmetry; etransitivity; [|exact (Ex _ W)]; apply (bsum_ext (S := R_ops)); intros k Hk; apply Rmult_comm|]. intros Hf o l r i Ho Hl Hr Hi. exact (Ef Hf _ (W o l r i Ho Hl Hr Hi)).
  Qed.
  Lemma split_oi t S : spectrum OutputInput t S -> (cutoff <= get S [0%nat])%R ->
    exists A B d v, svd_flex svd t "olri->olu,uri" (Some D) cutoff true (Some D) = Ok (A, B, d, Some v) /\
      kept OutputInput S d v /\ shp A = [O; D; D] /\ shp B = [D; D; F] /\ nonzero A /\ nonzero B /\
      exists t', truncated OutputInput t t' /\
      (forall o l r i, o < O -> l < D -> r < D -> i < F -> get t' [o; l; r; i] = bsum (S := R_ops) D (fun k => (get A [o; l; k] * get B [k; r; i])%R)) /\
      (full OutputInput S -> forall o l r i, o < O -> l < D -> r < D -> i < F -> get t' [o; l; r; i] = get t [o; l; r; i]).
  Proof.
    intros H Hs. destruct (split_any OutputInput t S H Hs) as (A & B & d & v & E & Kv & SA & SB & NA & NB & t' & Ct & Ex & Ef).
    exists A, B, d, v. split; [exact E|]. split; [exact Kv|]. split; [exact SA|]. split; [exact SB|]. split; [exact NA|]. split; [exact NB|]. exists t'. split; [exact Ct|].
    assert (W : forall o l r i, o < O -> l < D -> r < D -> i < F -> within_sizes sizes (reading (axes OutputInput) [o; l; r; i]) (axes OutputInput)).
    { intros o l r i Ho Hl Hr Hi x Hx. cbn in Hx. destruct Hx as [<-|[<-|[<-|[<-|[]]]]]; assumption. }
    split; [intros o l r i Ho Hl Hr Hi; specialize (W o l r i Ho Hl Hr Hi); symmetry; exact (Ex _ W)|]. intros Hf o l r i Ho Hl Hr Hi. exact (Ef Hf _ (W o l r i Ho Hl Hr Hi)).
  Qed.

  Notation wf := (wf K D F O).
  Notation mequiv := (mequiv K D F O).
  Notation kinds := (kinds K).
  Notation kind_of := (kind_of K).
  Notation healthy := (healthy svd D F O cutoff).
  Notation lossless := (lossless svd D F O cutoff).
  Definition step1 (m : mod_) : res (list mod_ * list (option nat) * list (option T)) :=
    match unmerge_mod svd cutoff m with
    | Some u => let* q := u in let '(ms, bonds, svs) := q in Ok (ms, tl bonds, tl svs)
    | None => let* _ := assert_ (match m with InputRegion _ _ _ => false | _ => true end) in Ok ([m], [None], [None])
    end.
  (** the bonds and spectra that belong to the cores of [l] *)
  Definition reported (l : list mod_) (bonds : list (option nat)) (svs : list (option T)) : Prop :=
    List.length bonds = region_core_len K l /\ List.length svs = region_core_len K l /\
    forall s, s < region_core_len K l ->
      match pair_at l s with
      | None => nth s bonds None = None
      | Some (p, t) => exists S d v, spectrum p t S /\ kept p S d v /\ nth s bonds None = Some d /\ nth s svs None = Some v
      end.
  Definition unmerged_ok (l ms : list mod_) (bonds : list (option nat)) (svs : list (option T)) : Prop :=
    Forall wf ms /\ kinds ms = flat_map unmerged1 (kinds l) /\ Forall nz ms /\ reported l bonds svs /\ (lossless l -> mequiv l ms) /\ (exists l', Forall2 (truncated_mod svd D F O cutoff) l l' /\ mequiv l' ms).
  Lemma spectrum_unique p t S S' : spectrum p t S -> spectrum p t S' -> S = S'.
  Proof.
    intros (U & V & [Hl HT HU HS HV Hsvd]) (U' & V' & H'). destruct (matrix_exists t sizes _ _ _ _ _ Hl HT) as (M & HM).
    destruct (Hsvd M HM) as [E _]. destruct (call_svd _ _ _ _ _ _ _ _ _ _ _ H' M HM) as [E' _]. rewrite E in E'. injection E' as _ E' _. exact E'.
  Qed.
  Lemma truncated_ext p t t' t'' : truncated p t t' -> shp t'' = shp t' -> (forall sg, within_sizes sizes sg (axes p) -> get t'' (map sg (axes p)) = get t' (map sg (axes p))) -> truncated p t t''.
  Proof. intros (U & S & V & H & Hs & Hg) E G. exists U, S, V. split; [exact H|]. split; [congruence|]. intros sg Hsg. rewrite (G sg Hsg). apply Hg. exact Hsg. Qed.
  Lemma pair_one m s : s < mod_core_len m -> forall r, pair_at (m :: r) s = pair_at [m] s.
  Proof. intros Hs r. cbn [pair_at]. apply Nat.ltb_lt in Hs. rewrite Hs. reflexivity. Qed.
  Lemma pair_rest m r s : pair_at (m :: r) (mod_core_len m + s) = pair_at r s.
  Proof. cbn [pair_at]. destruct (Nat.ltb_spec (mod_core_len m + s) (mod_core_len m)); [lia|]. f_equal. lia. Qed.
  Lemma pair_one_inv m r s x : pair_at [m] s = Some x -> pair_at (m :: r) s = Some x.
  Proof. cbn [pair_at]. destruct (s <? mod_core_len m); [auto|discriminate]. Qed.
  Lemma healthy_split m r : healthy (m :: r) -> healthy [m] /\ healthy r.
  Proof.
    intros [H1 H2]. split; split.
    - intros s p t E. apply (H1 s p t). apply pair_one_inv. exact E.
    - intros m' t Hi. apply H2. destruct Hi as [Hi|[]]. left; exact Hi.
    - intros s p t E. apply (H1 (mod_core_len m + s) p t). rewrite pair_rest. exact E.
    - intros m' t Hi. apply H2. right; exact Hi.
  Qed.
  Lemma lossless_split m r : lossless (m :: r) -> lossless [m] /\ lossless r.
  Proof.
    intros H. split.
    - intros s p t S E. apply (H s p t S). apply pair_one_inv. exact E.
    - intros s p t S E. apply (H (mod_core_len m + s) p t S). rewrite pair_rest. exact E.
  Qed.
  Lemma step1_ok m : wf m -> (match m with InputRegion _ _ _ => False | _ => True end) -> healthy [m] ->
    exists ms bonds svs, step1 m = Ok (ms, bonds, svs) /\ unmerged_ok [m] ms bonds svs.
  Proof.
    intros W Hr [H1 H2]. unfold unmerged_ok. destruct m as [t ub b|t|t|t|t lo]; [destruct Hr| | | |]; unfold step1.
    - (* OutputSite *)
      cbn [unmerge_mod assert_ rbind]. do 3 eexists. split; [reflexivity|]. split; [repeat constructor; exact W|]. split; [reflexivity|]. split.
      { repeat constructor. apply norm_pos. apply (H2 (OutputSite t) t); [left; reflexivity|right; reflexivity]. }
      split; [|split; [intros _; apply mequiv_refl; repeat constructor; exact W|exists [OutputSite t]; split; [repeat constructor|apply mequiv_refl; repeat constructor; exact W]]].
      split; [reflexivity|]. split; [reflexivity|]. intros s Hs. destruct s as [|s]; [reflexivity|]. cbn in Hs. lia.
    - (* InputSite *)
      cbn [unmerge_mod assert_ rbind]. do 3 eexists. split; [reflexivity|]. split; [repeat constructor; exact W|]. split; [reflexivity|]. split.
      { repeat constructor. apply norm_pos. apply (H2 (InputSite t) t); [left; reflexivity|left; reflexivity]. }
      split; [|split; [intros _; apply mequiv_refl; repeat constructor; exact W|exists [InputSite t]; split; [repeat constructor|apply mequiv_refl; repeat constructor; exact W]]].
      split; [reflexivity|]. split; [reflexivity|]. intros s Hs. destruct s as [|s]; [reflexivity|]. cbn in Hs. lia.
    - (* MergedInput *)
      destruct W as (h & Hh & Ht). cbn [unmerge_mod]. unfold size at 1 2 3. rewrite Ht. cbn [nth].
      assert (Pr : forall s, s < h -> pair_at [MergedInput t] (2 * s) = Some (TwoInputs, sel0 t s)).
      { intros s Hs. cbn [pair_at mod_core_len mod_len]. unfold size. rewrite Ht. cbn [nth]. destruct (Nat.ltb_spec (2 * s) (2 * h)); [|lia].
        rewrite mod_even, div_even. reflexivity. }
      destruct (rmap_Forall2 (fun s => svd_flex svd (sel0 t s) "lrij->lui,urj" (Some D) cutoff true (Some D))
         (fun s (q : T * T * nat * option T) => let '(A, B, d, sv) := q in exists S v, sv = Some v /\ spectrum TwoInputs (sel0 t s) S /\ kept TwoInputs S d v /\
            shp A = [D; D; F] /\ shp B = [D; D; F] /\ nonzero A /\ nonzero B /\
            exists t', truncated TwoInputs (sel0 t s) t' /\
            (forall l r i j, l < D -> r < D -> i < F -> j < F -> get t' [l; r; i; j] = bsum (S := R_ops) D (fun k => (get A [l; k; i] * get B [k; r; j])%R)) /\
            (full TwoInputs S -> forall l r i j, l < D -> r < D -> i < F -> j < F -> get t' [l; r; i; j] = get (sel0 t s) [l; r; i; j]))
         (seq 0 h)) as (parts & Ep & Hp).
      { intros s Hs. apply in_seq in Hs. destruct (H1 (2 * s) TwoInputs (sel0 t s) (Pr s ltac:(lia))) as (S & Sp & Hc).
        destruct (split_in (sel0 t s) S Sp Hc) as (A & B & d & v & E & X). exists (A, B, d, Some v). split; [exact E|]. exists S, v. split; [reflexivity|]. split; [exact Sp|exact X]. }
      rewrite Ep. cbn [rbind].
      set (dflt := (tconst [] 0%R, tconst [] 0%R, 0, None) : T * T * nat * option T).
      destruct (Forall2_seq _ h 0 parts dflt Hp) as (Lp & Gp). cbn [Nat.add] in Gp.
      set (fl := fun q : T * T * nat * option T => fst (fst (fst q))). set (fr := fun q : T * T * nat * option T => snd (fst (fst q))).
      set (fd := fun q : T * T * nat * option T => Some (snd (fst q))). set (fs := fun q : T * T * nat * option T => snd q).
      replace (flat_map (fun p => let '(l, r, _, _) := p in [l; r]) parts) with (flat_map (fun p => [fl p; fr p]) parts) by (apply flat_map_ext; intros [[[? ?] ?] ?]; reflexivity).
      replace (flat_map (fun p => let '(_, _, d, _) := p in [Some d; None]) parts) with (flat_map (fun p => [fd p; None]) parts) by (apply flat_map_ext; intros [[[? ?] ?] ?]; reflexivity).
      replace (flat_map (fun p => let '(_, _, _, sv) := p in [sv; None]) parts) with (flat_map (fun p => [fs p; None]) parts) by (apply flat_map_ext; intros [[[? ?] ?] ?]; reflexivity).
      assert (Fs : forall s, s < h -> let q := nth s parts dflt in shp (fl q) = [D; D; F] /\ shp (fr q) = [D; D; F] /\ nonzero (fl q) /\ nonzero (fr q)).
      { intros s Hs. specialize (Gp s Hs). cbn zeta. unfold fl, fr. destruct (nth s parts dflt) as [[[A B] d] sv]. destruct Gp as (S & v & _ & _ & _ & G). cbn [fst snd]. tauto. }
      destruct (stack0_ok (flat_map (fun p => [fl p; fr p]) parts) [D; D; F] (tconst [] 0%R)) as (st & Es & Hst & Gst).
      { intros E. apply (f_equal (@List.length _)) in E. rewrite length_flat2, Lp in E. cbn in E. lia. }
      { apply Forall_forall. intros x Hx. apply in_flat_map in Hx as (q & Hq & Hx). apply (In_nth _ _ dflt) in Hq as (s & Hs & <-). rewrite Lp in Hs.
        destruct (Fs s Hs) as (F1 & F2 & _). destruct Hx as [<-|[<-|[]]]; assumption. }
      rewrite Es. cbn [rbind]. rewrite length_flat2, Lp in Hst, Gst.
      assert (G0 : forall s i, s < h -> get st (2 * s :: i) = get (fl (nth s parts dflt)) i /\ get st (2 * s + 1 :: i) = get (fr (nth s parts dflt)) i).
      { intros s i Hs. rewrite !Gst by lia. destruct (nth_flat2 fl fr parts (tconst [] 0%R) dflt s ltac:(lia)) as [N1 N2]. rewrite N1, N2. split; reflexivity. }
      destruct (input_region_any K D F st true (2 * h) Hst) as (bias & Er & Hb). rewrite Er. cbn [rbind tl].
      do 3 eexists. split; [reflexivity|]. pose proof (Hst : @shp (car (rops R_cring)) st = [2 * h; D; D; F]) as Hst'.
      assert (Wr : wf (InputRegion (K := R_cring) st true bias)) by (exists (2 * h); split; [lia|]; split; assumption).
      split; [repeat constructor; exact Wr|]. split; [cbn [AdMerge.kinds map AdMerge.kind_of flat_map unmerged1 app]; unfold size; rewrite Ht, Hst'; reflexivity|].
      split.
      { constructor; [|constructor]. unfold nz. cbn [get_norm]. apply Forall_forall. intros x Hx. apply in_map_iff in Hx as (s & <- & Hs). apply in_seq in Hs.
        unfold size in Hs. rewrite Hst' in Hs. cbn [nth] in Hs. apply norm_pos.
        assert (Hcase : exists h', h' < h /\ (s = 2 * h' \/ s = 2 * h' + 1)).
        { exists (s / 2). pose proof (Nat.div_mod s 2 ltac:(lia)) as DM. destruct (mod2_cases s) as [E|E]; rewrite E in DM; (split; [lia|]); [left|right]; lia. }
        destruct Hcase as (h' & Hh' & Hcase). destruct (Fs h' Hh') as (F1 & F2 & (i1 & V1 & N1) & (i2 & V2 & N2)).
        destruct (G0 h' i1 Hh') as [Q1 _]. destruct (G0 h' i2 Hh') as [_ Q2]. rewrite F1 in V1. rewrite F2 in V2.
        unfold nonzero, sel0. cbn [shp get]. rewrite Hst'. cbn [tl].
        destruct Hcase as [->| ->]; [exists i1|exists i2]; (split; [assumption|]); [intros X; apply N1; rewrite <- Q1; exact X|intros X; apply N2; rewrite <- Q2; exact X]. }
      assert (Gk : forall s, s < h -> exists S v, fs (nth s parts dflt) = Some v /\ spectrum TwoInputs (sel0 t s) S /\ kept TwoInputs S (snd (fst (nth s parts dflt))) v).
      { intros s Hs. specialize (Gp s Hs). unfold fs. destruct (nth s parts dflt) as [[[A B] d] sv]. destruct Gp as (S & v & -> & Sp & Kp & _). exists S, v. auto. }
      split.
      { assert (Cl : region_core_len K [MergedInput t] = 2 * h) by (unfold region_core_len; cbn [fold_right mod_core_len mod_len]; unfold size; rewrite Ht; cbn [nth]; lia).
        split; [rewrite length_flat2, Lp, Cl; reflexivity|]. split; [rewrite length_flat2, Lp, Cl; reflexivity|]. rewrite Cl. intros s Hs.
        assert (Hcase : exists h', h' < h /\ (s = 2 * h' \/ s = 2 * h' + 1)).
        { exists (s / 2). pose proof (Nat.div_mod s 2 ltac:(lia)) as DM. destruct (mod2_cases s) as [E|E]; rewrite E in DM; (split; [lia|]); [left|right]; lia. }
        destruct Hcase as (h' & Hh' & Hcase).
        destruct (nth_flat2 fd (fun _ => None) parts None dflt h' ltac:(lia)) as [N1 N2]. destruct (nth_flat2 fs (fun _ => None) parts None dflt h' ltac:(lia)) as [N3 N4].
        destruct Hcase as [->| ->].
        - rewrite (Pr h' Hh'). destruct (Gk h' Hh') as (S & v & Ev & Sp & Kp). exists S, (snd (fst (nth h' parts dflt))), v. rewrite N1, N3, Ev. auto.
        - cbn [pair_at mod_core_len mod_len]. destruct (_ <? _); [|exact N2]. rewrite mod_odd. exact N2. }
      assert (Gt : forall s, s < h -> exists t', truncated TwoInputs (sel0 t s) t' /\
        (forall l r i j, l < D -> r < D -> i < F -> j < F -> get t' [l; r; i; j] = bsum (S := R_ops) D (fun k => (get st [(2 * s)%nat; l; k; i] * get st [(2 * s + 1)%nat; k; r; j])%R)) /\
        (forall S, spectrum TwoInputs (sel0 t s) S -> full TwoInputs S -> forall l r i j, l < D -> r < D -> i < F -> j < F -> get t' [l; r; i; j] = get (sel0 t s) [l; r; i; j])).
      { intros s Hs. specialize (Gp s Hs). destruct (nth s parts dflt) as [[[A B] d] sv] eqn:Eq. destruct Gp as (S & v & -> & Sp & Kp & _ & _ & _ & _ & t' & Ct & Gx & Gf).
        exists t'. split; [exact Ct|]. split.
        - intros l r i j Hl' Hr' Hi Hj. rewrite (Gx l r i j Hl' Hr' Hi Hj). apply (bsum_ext (S := R_ops)). intros k Hk.
          destruct (G0 s [l; k; i] Hs) as [Q1 _]. destruct (G0 s [k; r; j] Hs) as [_ Q2]. rewrite Eq in Q1, Q2. unfold fl, fr in *. cbn [fst snd] in *. apply (f_equal2 Rmult); symmetry; [exact Q1|exact Q2].
        - intros S' Sp' Hf'. apply Gf. rewrite (spectrum_unique TwoInputs _ S S' Sp Sp'). exact Hf'. }
      set (tt := mkT (shp t) (fun idx => match idx with [s; l; r; i; j] => bsum (S := R_ops) D (fun k => (get st [(2 * s)%nat; l; k; i] * get st [(2 * s + 1)%nat; k; r; j])%R) | _ => 0%R end) : T).
      split; [|exists [MergedInput tt]; split].
      2:{ constructor; [|constructor]. split; [reflexivity|]. unfold size. rewrite Ht. cbn [nth]. intros s Hs. destruct (Gt s Hs) as (t' & Ct & Gx & _).
          apply (truncated_ext TwoInputs _ t'); [exact Ct| |].
          - destruct Ct as (U & S & V & _ & Q & _). rewrite Q. unfold sel0. cbn [shp]. reflexivity.
          - intros sg Hsg. cbn [axes chars list_ascii_of_string map]. unfold tt, sel0. cbn [get shp]. rewrite Gx; [reflexivity|..]; apply Hsg; cbn; tauto. }
      2:{ apply mequiv_sym. apply (merged_even_equiv K D F O st tt true bias h); auto. }
      intros Hl. apply mequiv_sym. apply (merged_even_equiv K D F O st t true bias h); auto.
      intros s l r i j Hs Hl' Hr' Hi Hj. destruct (Gt s Hs) as (t' & _ & Gx & Gf). destruct (H1 (2 * s) TwoInputs (sel0 t s) (Pr s Hs)) as (S & Sp & _).
      assert (Hfull : full TwoInputs S) by (intros k Hk Hkk; apply (Hl (2 * s) TwoInputs (sel0 t s) S (Pr s Hs) Sp k Hk Hkk)).
      specialize (Gf S Sp Hfull l r i j Hl' Hr' Hi Hj). unfold sel0 in Gf. cbn [get] in Gf. refine (eq_trans (eq_sym Gf) _). apply Gx; assumption.
    - (* MergedOutput *)
      assert (Pr : pair_at [MergedOutput t lo] 0 = Some (if lo then OutputInput else InputOutput, t)) by reflexivity.
      destruct (H1 0 _ _ Pr) as (S & Sp & Hc). cbn [wf wf_mod] in W. destruct lo; cbn [unmerge_mod]; unfold size; rewrite W; cbn [nth].
      + destruct (split_oi t S Sp Hc) as (A & B & d & v & E & Kv & SA & SB & NA & NB & t' & Ct & Gx & Gf). rewrite E. cbn [rbind tl].
        do 3 eexists. split; [reflexivity|]. split; [repeat constructor; assumption|]. split; [reflexivity|].
        split; [repeat constructor; apply norm_pos; assumption|]. split.
        { split; [reflexivity|]. split; [reflexivity|]. intros s Hs. destruct s as [|[|s]]; [|reflexivity|cbn in Hs; lia]. exists S, d, v. auto. }
        assert (St : shp t' = [O; D; D; F]) by (destruct Ct as (? & ? & ? & _ & Q & _); rewrite Q; exact W).
        split; [|exists [MergedOutput t' true]; split; [constructor; [split; [reflexivity|exact Ct]|constructor]|apply mequiv_sym; apply (mout_equiv_r K D F O B A t'); assumption]].
        intros Hl. apply mequiv_sym. apply (mout_equiv_r K D F O B A t); try assumption. intros o l r i Ho Hl' Hr' Hi. rewrite <- Gx by assumption. symmetry. apply Gf; auto.
        intros k Hk Hkk. apply (Hl 0 _ _ S Pr Sp k Hk Hkk).
      + destruct (split_io t S Sp Hc) as (A & B & d & v & E & Kv & SA & SB & NA & NB & t' & Ct & Gx & Gf). rewrite E. cbn [rbind tl].
        do 3 eexists. split; [reflexivity|]. split; [repeat constructor; assumption|]. split; [reflexivity|].
        split; [repeat constructor; apply norm_pos; assumption|]. split.
        { split; [reflexivity|]. split; [reflexivity|]. intros s Hs. destruct s as [|[|s]]; [|reflexivity|cbn in Hs; lia]. exists S, d, v. auto. }
        assert (St : shp t' = [O; D; D; F]) by (destruct Ct as (? & ? & ? & _ & Q & _); rewrite Q; exact W).
        split; [|exists [MergedOutput t' false]; split; [constructor; [split; [reflexivity|exact Ct]|constructor]|apply mequiv_sym; apply (mout_equiv_l K D F O B A t'); assumption]].
        intros Hl. apply mequiv_sym. apply (mout_equiv_l K D F O B A t); try assumption. intros o l r i Ho Hl' Hr' Hi. rewrite <- Gx by assumption. symmetry. apply Gf; auto.
        intros k Hk Hkk. apply (Hl 0 _ _ S Pr Sp k Hk Hkk).
  Qed.
  Lemma unmerge_each_ok l : Forall wf l -> Forall (fun m => match m with InputRegion _ _ _ => False | _ => True end) l -> healthy l ->
    exists ms bonds svs, unmerge_each svd cutoff l = Ok (ms, bonds, svs) /\ unmerged_ok l ms bonds svs.
  Proof.
    intros W NR H. induction l as [|m l IH].
    - exists [], [], []. split; [reflexivity|]. split; [constructor|]. split; [reflexivity|]. split; [constructor|]. split; [|split; [intros _; apply mequiv_refl; constructor|exists []; split; [constructor|apply mequiv_refl; constructor]]].
      split; [reflexivity|]. split; [reflexivity|]. intros s Hs. cbn in Hs. lia.
    - inversion W as [|? ? Wm Wl]; subst. inversion NR as [|? ? Nm Nl]; subst. destruct (healthy_split m l H) as [Hm Hl].
      destruct (step1_ok m Wm Nm Hm) as (ms & bonds & svs & E & A1 & A2 & A3 & (A4 & A5 & A6) & A7 & l1 & A8 & A9).
      destruct (IH Wl Nl Hl) as (ms' & bonds' & svs' & E' & B1 & B2 & B3 & (B4 & B5 & B6) & B7 & l2 & B8 & B9).
      change (unmerge_each svd cutoff (m :: l)) with
        (let* p := step1 m in let '(ms, bonds, svs) := p in let* q := unmerge_each svd cutoff l in let '(ms', bonds', svs') := q in Ok (ms ++ ms', bonds ++ bonds', svs ++ svs')).
      rewrite E. cbn [rbind]. rewrite E'. cbn [rbind].
      exists (ms ++ ms'), (bonds ++ bonds'), (svs ++ svs'). split; [reflexivity|].
      split; [apply Forall_app; auto|]. split.
      { unfold AdMerge.kinds in *. rewrite map_app, A2, B2. cbn [map flat_map]. rewrite app_nil_r. reflexivity. }
      split; [apply Forall_app; auto|]. split.
      + assert (Cl : region_core_len K (m :: l) = region_core_len K [m] + region_core_len K l) by apply (core_len_app K [m] l).
        assert (C1 : region_core_len K [m] = mod_core_len m) by (unfold region_core_len; cbn [fold_right]; lia).
        split; [rewrite app_length, A4, B4, Cl; reflexivity|]. split; [rewrite app_length, A5, B5, Cl; reflexivity|].
        intros s Hs. rewrite Cl in Hs. destruct (Nat.lt_ge_cases s (mod_core_len m)) as [Hlt|Hge].
        * rewrite (pair_one m s Hlt l). rewrite !app_nth1 by lia. apply A6. lia.
        * assert (Ep : pair_at (m :: l) s = pair_at l (s - mod_core_len m)) by (rewrite <- (pair_rest m l); f_equal; lia). rewrite Ep. rewrite !app_nth2 by lia. rewrite A4, A5, C1. apply B6. lia.
      + split; [intros Hl'; destruct (lossless_split m l Hl') as [L1 L2]; apply (mequiv_app K D F O [m] ms l ms'); auto|].
        exists (l1 ++ l2). split; [apply (Forall2_app A8 B8)|apply mequiv_app; assumption].
  Qed.
End U.
