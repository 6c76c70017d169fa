(** * P_Sym2: more transformations of a ProbMPS / ProbUnifMPS (torchmps/prob_mps.py) with a known effect on
    the log probabilities.  C76: mirror image.  C77: complex conjugation.  C78: renamed letters.
    C79: one-hot vectors instead of letters.  C80: bond dimension 1 makes the sites independent. *)
From Coq Require Import Ring_theory Ring Reals Lra Permutation.
From Verif Require Import Base Scalars Tensor Utils2 MpsBase Embeddings ProbMps Spec MatSpec ModelSpec
  LinAlg Utils2Proofs EinsumProofs MatseqProofs SlimProofs LogNorm ProbProofs P_Prob P_Sym.

Lemma words_nodup d n : NoDup (words d n).
Proof.
  induction n as [|n IH]; [repeat constructor; intros []|]. cbn [words].
  assert (G : forall l, NoDup l -> NoDup (flat_map (fun i => map (cons i) (words d n)) l)).
  { induction l as [|i l IHl]; intros Hl; [constructor|]. inversion Hl as [|? ? Hi Hl']; subst. cbn [flat_map].
    assert (NA : forall (a b : list (list nat)), NoDup a -> NoDup b -> (forall y, In y a -> ~ In y b) -> NoDup (a ++ b)).
    { induction a as [|y a IHa]; intros b Ha Hb Hab; [exact Hb|]. inversion Ha; subst. cbn [app]. constructor.
      - rewrite in_app_iff. intros [X|X]; [contradiction|]. exact (Hab y (or_introl eq_refl) X).
      - apply IHa; [assumption..|]. intros z Hz. apply Hab. right; exact Hz. }
    apply NA.
    - apply FinFun.Injective_map_NoDup; [intros a b E; injection E; auto|exact IH].
    - apply IHl, Hl'.
    - intros y Hy Hy'. apply in_map_iff in Hy as (z & <- & _). apply in_flat_map in Hy' as (i' & Hi' & Hy'). apply in_map_iff in Hy' as (z' & E & _). injection E as -> _. contradiction. }
  apply G, seq_NoDup.
Qed.
Lemma words_perm d n (g : list nat -> list nat) : (forall xs, In xs (words d n) -> In (g xs) (words d n)) ->
  (forall xs ys, In xs (words d n) -> In ys (words d n) -> g xs = g ys -> xs = ys) -> Permutation (map g (words d n)) (words d n).
Proof.
  intros Hg Hi. apply NoDup_Permutation_bis.
  - assert (G : forall l, NoDup l -> incl l (words d n) -> NoDup (map g l)).
    { induction l as [|x l IH]; intros Hl Hin; [constructor|]. inversion Hl as [|? ? Hx Hl']; subst. cbn [map]. constructor.
      - intros X. apply in_map_iff in X as (y & E & Hy). apply Hi in E; [subst y; contradiction|apply Hin; right; exact Hy|apply Hin; left; reflexivity].
      - apply IH; [exact Hl'|]. intros z Hz. apply Hin. right; exact Hz. }
    apply G; [apply words_nodup|intros z Hz; exact Hz].
  - rewrite map_length. lia.
  - intros y Hy. apply in_map_iff in Hy as (x & <- & Hx). apply Hg, Hx.
Qed.

Section Sym.
  Variable K : numfield.
  Add Ring KrSym2 : (rth K).
  Notation xr := (tensor xreal).
  Notation matK := (mat K).

  (** Two models and two inputs with the same probabilities up to the normalisation give the same results *)
  Lemma same_values (uniform uniform' : bool) (m m' : pmps K) (x x' : tin K) (slim par slim' par' : bool) (batch n d d' D D' : nat) :
    shapes_of K uniform m n d D -> shapes_of K uniform' m' n d' D' -> pm_emb K m = None -> pm_emb K m' = None -> 0 < n -> wf_input x batch n d -> wf_input x' batch n d' ->
    (slim = true -> pm_bias K m = None) -> (slim' = true -> pm_bias K m' = None) ->
    Zfun K uniform' m' n d' D' = Zfun K uniform m n d D ->
    (forall b, b < batch -> abs2 (psi K uniform' m' n d' D' x' b) = abs2 (psi K uniform m n d D x b)) ->
    (forall T T', snd (fwd K uniform m x slim par) = Ok T -> snd (fwd K uniform' m' x' slim' par') = Ok T' ->
       shp T = [batch] /\ shp T' = [batch] /\ forall b, b < batch -> get T' [b] = get T [b]) /\
    ((0 < Zfun K uniform m n d D)%R -> (forall b, b < batch -> psi K uniform m n d D x b <> s0) ->
       exists T T', snd (fwd K uniform m x slim par) = Ok T /\ snd (fwd K uniform' m' x' slim' par') = Ok T').
  Proof.
    intros Hsh Hsh' He He' Hn Hx Hx' Hsl Hsl' HZ Hpsi. split.
    - intros T T' ET ET'. destruct (forward_ok K uniform m x slim par batch n d D Hsh He Hx Hn Hsl) as [H _]. destruct (forward_ok K uniform' m' x' slim' par' batch n d' D' Hsh' He' Hx' Hn Hsl') as [H' _].
      rewrite ET in H. rewrite ET' in H'. destruct H as (_ & HT & H). destruct H' as (_ & HT' & H').
      split; [exact HT|]. split; [exact HT'|]. intros b Hb. specialize (H b Hb). specialize (H' b Hb).
      change (is_log (get T [b]) (abs2 (psi K uniform m n d D x b) / Zfun K uniform m n d D)) in H.
      change (is_log (get T' [b]) (abs2 (psi K uniform' m' n d' D' x' b) / Zfun K uniform' m' n d' D')) in H'.
      rewrite HZ, Hpsi in H' by exact Hb. apply (is_log_unique _ _ _ H' H).
    - intros HZ0 Hnz. destruct (born K uniform m x slim par batch n d D Hsh He Hx Hn Hsl HZ0 Hnz) as (T & ET & _).
      destruct (born K uniform' m' x' slim' par' batch n d' D' Hsh' He' Hx' Hn Hsl') as (T' & ET' & _); [rewrite HZ; exact HZ0| |eauto].
      intros b Hb E. apply (Hnz b Hb), abs2_zero. rewrite <- Hpsi by exact Hb. rewrite E. apply abs2_s0.
  Qed.
  Lemma Z_bij (uniform uniform' : bool) (m m' : pmps K) n d D D' (g : list nat -> list nat) :
    (forall xs, In xs (words d n) -> In (g xs) (words d n)) -> (forall xs ys, In xs (words d n) -> In ys (words d n) -> g xs = g ys -> xs = ys) ->
    (forall xs, In xs (words d n) -> abs2 (psi K uniform' m' n d D' (TLong (one_row n (g xs))) 0) = abs2 (psi K uniform m n d D (TLong (one_row n xs)) 0)) ->
    Zfun K uniform' m' n d D' = Zfun K uniform m n d D.
  Proof.
    intros Hg Hi H. unfold Zfun, partition_fn. rewrite <- (lsum_perm R_cring _ _ _ (words_perm d n g Hg Hi)).
    refine (eq_trans (lsum_map R_cring g (words d n) _) _). apply (lsum_ext R_cring). intros xs Hx. specialize (H xs Hx).
    unfold psi in H. cbn [row_amp] in H. rewrite (one_row_letters n d xs Hx), (one_row_letters n d (g xs) (Hg xs Hx)) in H. exact H.
  Qed.

  (** ** C76: the mirror image *)
  (** the model read from right to left *)
  Definition mirrored (uniform : bool) (n d D : nat) (m m' : pmps K) : Prop :=
    (forall t k i j, t < n -> k < d -> i < D -> j < D -> entry (pm_core K m') uniform t k i j = entry (pm_core K m) uniform (n - 1 - t) k j i) /\
    (forall i j, i < D -> j < D -> bias_at (pm_bias K m') i j = bias_at (pm_bias K m) j i) /\
    (forall i, i < D -> edge_at (pm_edge K m') 0 i = edge_at (pm_edge K m) 1 i) /\
    (forall i, i < D -> edge_at (pm_edge K m') 1 i = edge_at (pm_edge K m) 0 i).
  (** the sequences read from right to left *)
  Definition reversed (batch n d : nat) (x x' : tin K) : Prop :=
    match x, x' with
    | TLong ix, TLong ix' => forall b t, b < batch -> t < n -> get ix' [b; t] = get ix [b; n - 1 - t]
    | TFloat v, TFloat v' => forall b t k, b < batch -> t < n -> k < d -> get v' [b; t; k] = get v [b; n - 1 - t; k]
    | _, _ => False
    end.
  Lemma fchain_S D n (f : nat -> matK) : fchain K D (S n) f = (D, f 0) :: fchain K D n (fun t => f (S t)).
  Proof. unfold fchain. cbn [seq map]. rewrite <- seq_shift, map_map. reflexivity. Qed.
  Lemma chain_mirror D n : forall f f' : nat -> matK, (forall t i j, t < n -> i < D -> j < D -> f' t i j = f (n - 1 - t) j i) ->
    forall i j, i < D -> j < D -> chain (fchain K D n f') i j = chain (fchain K D n f) j i.
  Proof.
    induction n as [|n IH]; intros f f' H i j Hi Hj.
    - cbn. unfold delta. rewrite Nat.eqb_sym. reflexivity.
    - rewrite (fchain_S D n f), chain_cons. unfold fchain at 1. rewrite seq_S, map_app. cbn [plus map].
      rewrite (chain_app K D) by exact Hi. fold (fchain K D n f'). rewrite fchain_cols. unfold mmul. apply bsum_ext. intros k Hk.
      rewrite (chain_single K) by exact Hj. rewrite (IH (fun t => f (S t)) f') by (try assumption; intros t a b Ht Ha Hb; rewrite H by (try assumption; lia); f_equal; lia).
      rewrite H by (try assumption; lia). replace (S n - 1 - n) with 0 by lia. ring.
  Qed.
  Lemma mirror_psi uniform n d D m m' x x' batch b : mirrored uniform n d D m m' -> wf_input x batch n d -> wf_input x' batch n d -> reversed batch n d x x' -> b < batch ->
    psi K uniform m' n d D x' b = psi K uniform m n d D x b.
  Proof.
    intros (Hc & Hb & H0 & H1) Hx Hx' Hr Hbb. unfold psi. rewrite !row_amp_chain. unfold sandwich.
    transitivity (bsum D (fun i => bsum D (fun j => smul (edge_at (pm_edge K m) 1 i) (smul (chain (fchain K D n (row_site K (pm_core K m) (pm_bias K m) uniform d x b)) j i) (edge_at (pm_edge K m) 0 j))))).
    - apply bsum_ext. intros i Hi. apply bsum_ext. intros j Hj. rewrite H0, H1 by assumption. f_equal. f_equal.
      apply chain_mirror; [|assumption..]. intros t a e Ht Ha Hee. unfold row_site. rewrite Hb by assumption. f_equal. unfold site_mat.
      change (fun k => core_at K ?c ?u ?t k ?i ?j) with (fun k => entry c u t k i j).
      destruct x as [ix|v], x' as [ix'|v']; cbn [reversed] in Hr; try contradiction; cbn [slice_at].
      + rewrite Hr by assumption. destruct Hx as [_ Hx]. specialize (Hx b (n - 1 - t) Hbb ltac:(lia)). apply Hc; try assumption; lia.
      + apply bsum_ext. intros k Hk. rewrite Hr by assumption. f_equal. apply Hc; assumption.
    - rewrite bsum_swap. apply bsum_ext. intros j Hj. apply bsum_ext. intros i Hi. ring.
  Qed.
  (** A model and its mirror image give the same values on a sequence and its mirror image. *)
  Theorem C76_mirror (uniform : bool) (n d D : nat) (m m' : pmps K) (x x' : tin K) (slim par slim' par' : bool) (batch : nat) :
    shapes_of K uniform m n d D -> shapes_of K uniform m' n d D -> 0 < n -> pm_emb K m = None -> pm_emb K m' = None ->
    (slim = true -> pm_bias K m = None) -> (slim' = true -> pm_bias K m' = None) ->
    mirrored uniform n d D m m' -> wf_input x batch n d -> wf_input x' batch n d -> reversed batch n d x x' ->
    (forall T T', snd (fwd K uniform m x slim par) = Ok T -> snd (fwd K uniform m' x' slim' par') = Ok T' ->
       shp T = [batch] /\ shp T' = [batch] /\ forall b, b < batch -> get T' [b] = get T [b]) /\
    ((0 < Zfun K uniform m n d D)%R -> (forall b, b < batch -> psi K uniform m n d D x b <> s0) ->
       exists T T', snd (fwd K uniform m x slim par) = Ok T /\ snd (fwd K uniform m' x' slim' par') = Ok T').
  Proof.
    intros Hsh Hsh' Hn He He' Hs Hs' Hm Hx Hx' Hr. apply (same_values uniform uniform m m' x x' slim par slim' par' batch n d d D D); try assumption.
    - assert (Hw : forall xs, In xs (words d n) -> In (rev xs) (words d n)).
      { intros xs Hxs. destruct (words_facts d n xs Hxs) as [Hl Hd]. apply in_words; [rewrite rev_length; exact Hl|].
        intros y Hy. apply in_rev in Hy. apply (In_nth _ _ 0) in Hy as (t & Ht & <-). apply Hd. lia. }
      apply (Z_bij uniform uniform m m' n d D D (@rev nat) Hw).
      + intros xs ys _ _ E. rewrite <- (rev_involutive xs), <- (rev_involutive ys), E. reflexivity.
      + intros xs Hxs. f_equal. apply (mirror_psi uniform n d D m m' _ _ 1); try assumption; [apply one_row_wf; assumption|apply one_row_wf, Hw, Hxs| |lia].
        intros b t _ Ht. cbn [one_row get nth]. f_equal. destruct (words_facts d n xs Hxs) as [Hl _]. rewrite rev_nth by lia. f_equal. lia.
    - intros b Hb. f_equal. apply (mirror_psi uniform n d D m m' x x' batch); assumption.
  Qed.

  (** ** C77: complex conjugation *)
  Definition conjugated (uniform : bool) (n d D : nat) (m m' : pmps K) : Prop :=
    (forall t k i j, t < n -> k < d -> i < D -> j < D -> entry (pm_core K m') uniform t k i j = nconj K (entry (pm_core K m) uniform t k i j)) /\
    (forall i j, i < D -> j < D -> bias_at (pm_bias K m') i j = nconj K (bias_at (pm_bias K m) i j)) /\
    (forall e i, e < 2 -> i < D -> edge_at (pm_edge K m') e i = nconj K (edge_at (pm_edge K m) e i)).
  Definition conj_input (batch n d : nat) (x x' : tin K) : Prop :=
    match x, x' with
    | TLong ix, TLong ix' => forall b t, b < batch -> t < n -> get ix' [b; t] = get ix [b; t]
    | TFloat v, TFloat v' => forall b t k, b < batch -> t < n -> k < d -> get v' [b; t; k] = nconj K (get v [b; t; k])
    | _, _ => False
    end.
  Lemma conj_one : nconj K s1 = s1. Proof. rewrite <- (nof_1 K). apply nconj_of. Qed.
  Lemma conj_zero : nconj K s0 = s0. Proof. rewrite <- (nof_0 K). apply nconj_of. Qed.
  Lemma abs2_conj (z : K) : abs2 (nconj K z) = abs2 z.
  Proof.
    pose proof (nabs_sq K (nconj K z)) as E. rewrite nconj_conj in E. pose proof (nabs_sq K z) as E'.
    assert (Q : nofR K (abs2 (nconj K z)) = nofR K (abs2 z)) by (unfold abs2; rewrite <- E, <- E'; ring).
    rewrite <- (nre_of K (abs2 z)), <- Q. symmetry. apply nre_of.
  Qed.
  Lemma chain_conj D n : forall f f' : nat -> matK, (forall t i j, t < n -> i < D -> j < D -> f' t i j = nconj K (f t i j)) ->
    forall i j, i < D -> j < D -> chain (fchain K D n f') i j = nconj K (chain (fchain K D n f) i j).
  Proof.
    induction n as [|n IH]; intros f f' H i j Hi Hj.
    - cbn. unfold delta. destruct (i =? j); [rewrite conj_one|rewrite conj_zero]; reflexivity.
    - rewrite !fchain_S, !chain_cons. unfold mmul. rewrite nconj_bsum. apply bsum_ext. intros k Hk. rewrite nconj_mul, H by (try assumption; lia).
      f_equal. apply (IH (fun t => f (S t))); try assumption. intros t a b Ht Ha Hb. apply H; try assumption; lia.
  Qed.
  Lemma conj_psi uniform n d D m m' x x' batch b : conjugated uniform n d D m m' -> wf_input x batch n d -> wf_input x' batch n d -> conj_input batch n d x x' -> b < batch ->
    psi K uniform m' n d D x' b = nconj K (psi K uniform m n d D x b).
  Proof.
    intros (Hc & Hb & He) Hx Hx' Hr Hbb. unfold psi. rewrite !row_amp_chain. unfold sandwich. rewrite nconj_bsum. apply bsum_ext. intros i Hi.
    rewrite nconj_bsum. apply bsum_ext. intros j Hj. rewrite !nconj_mul, !He by (try assumption; lia). f_equal. f_equal.
    apply chain_conj; [|assumption..]. intros t a e Ht Ha Hee. unfold row_site. rewrite nconj_add, Hb by assumption. f_equal. unfold site_mat.
    change (fun k => core_at K ?c ?u ?t k ?i ?j) with (fun k => entry c u t k i j).
    destruct x as [ix|v], x' as [ix'|v']; cbn [conj_input] in Hr; try contradiction; cbn [slice_at].
    - rewrite Hr by assumption. destruct Hx as [_ Hx]. specialize (Hx b t Hbb Ht). apply Hc; try assumption; lia.
    - rewrite nconj_bsum. apply bsum_ext. intros k Hk. rewrite nconj_mul, Hr by assumption. f_equal. apply Hc; assumption.
  Qed.
  (** Conjugating all parameters (and the feature vectors) leaves the log probabilities unchanged. *)
  Theorem C77_conjugation (uniform : bool) (n d D : nat) (m m' : pmps K) (x x' : tin K) (slim par slim' par' : bool) (batch : nat) :
    shapes_of K uniform m n d D -> shapes_of K uniform m' n d D -> 0 < n -> pm_emb K m = None -> pm_emb K m' = None ->
    (slim = true -> pm_bias K m = None) -> (slim' = true -> pm_bias K m' = None) ->
    conjugated uniform n d D m m' -> wf_input x batch n d -> wf_input x' batch n d -> conj_input batch n d x x' ->
    (forall T T', snd (fwd K uniform m x slim par) = Ok T -> snd (fwd K uniform m' x' slim' par') = Ok T' ->
       shp T = [batch] /\ shp T' = [batch] /\ forall b, b < batch -> get T' [b] = get T [b]) /\
    ((0 < Zfun K uniform m n d D)%R -> (forall b, b < batch -> psi K uniform m n d D x b <> s0) ->
       exists T T', snd (fwd K uniform m x slim par) = Ok T /\ snd (fwd K uniform m' x' slim' par') = Ok T').
  Proof.
    intros Hsh Hsh' Hn He He' Hs Hs' Hm Hx Hx' Hr. apply (same_values uniform uniform m m' x x' slim par slim' par' batch n d d D D); try assumption.
    - apply (Z_bij uniform uniform m m' n d D D (fun xs => xs)); [auto..|]. intros xs Hxs.
      rewrite (conj_psi uniform n d D m m' (TLong (one_row n xs)) (TLong (one_row n xs)) 1 0); [apply abs2_conj|assumption|apply one_row_wf; assumption..| |lia]. intros b t _ _. reflexivity.
    - intros b Hb. rewrite (conj_psi uniform n d D m m' x x' batch b) by assumption. apply abs2_conj.
  Qed.

  (** ** C78: renaming the letters, at each site in its own way *)
  Definition renaming (n d : nat) (s : nat -> nat -> nat) : Prop :=
    (forall t k, t < n -> k < d -> s t k < d) /\ (forall t k k', t < n -> k < d -> k' < d -> s t k = s t k' -> k = k').
  Definition renamed (uniform : bool) (n d D : nat) (s : nat -> nat -> nat) (m m' : pmps K) : Prop :=
    (forall t k i j, t < n -> k < d -> i < D -> j < D -> entry (pm_core K m') uniform t k i j = entry (pm_core K m) uniform t (s t k) i j) /\
    (forall i j, i < D -> j < D -> bias_at (pm_bias K m') i j = bias_at (pm_bias K m) i j) /\
    (forall e i, e < 2 -> i < D -> edge_at (pm_edge K m') e i = edge_at (pm_edge K m) e i).
  Definition renamed_input (batch n d : nat) (s : nat -> nat -> nat) (x x' : tin K) : Prop :=
    match x, x' with
    | TLong ix, TLong ix' => forall b t, b < batch -> t < n -> Z.to_nat (get ix [b; t]) = s t (Z.to_nat (get ix' [b; t]))
    | TFloat v, TFloat v' => forall b t k, b < batch -> t < n -> k < d -> get v' [b; t; k] = get v [b; t; s t k]
    | _, _ => False
    end.
  Lemma renaming_perm n d s t : renaming n d s -> t < n -> Permutation (map (s t) (seq 0 d)) (seq 0 d).
  Proof.
    intros [Hs Hi] Ht. apply NoDup_Permutation_bis.
    - assert (G : forall l, NoDup l -> incl l (seq 0 d) -> NoDup (map (s t) l)).
      { induction l as [|x l IH]; intros Hl Hin; [constructor|]. inversion Hl as [|? ? Hx Hl']; subst. cbn [map]. constructor.
        - intros X. apply in_map_iff in X as (y & E & Hy). pose proof (Hin y (or_intror Hy)) as Hy'. pose proof (Hin x (or_introl eq_refl)) as Hx'. apply in_seq in Hy', Hx'.
          apply Hi in E; [subst y; contradiction|lia..].
        - apply IH; [exact Hl'|]. intros z Hz. apply Hin. right; exact Hz. }
      apply G; [apply seq_NoDup|intros z Hz; exact Hz].
    - rewrite map_length. lia.
    - intros y Hy. apply in_map_iff in Hy as (x & <- & Hx). apply in_seq in Hx. apply in_seq. specialize (Hs t x Ht). lia.
  Qed.
  Lemma renamed_psi uniform n d D s m m' x x' batch b : renaming n d s -> renamed uniform n d D s m m' -> wf_input x batch n d -> wf_input x' batch n d ->
    renamed_input batch n d s x x' -> b < batch -> psi K uniform m' n d D x' b = psi K uniform m n d D x b.
  Proof.
    intros Hs (Hc & Hb & He) Hx Hx' Hr Hbb. unfold psi. rewrite !row_amp_chain.
    apply sandwich_ext; [intros i Hi; apply He; [lia|exact Hi]..|]. apply fchain_ext. intros t a e Ht Ha Hee. unfold row_site. rewrite Hb by assumption. f_equal. unfold site_mat.
    change (fun k => core_at K ?c ?u ?t k ?i ?j) with (fun k => entry c u t k i j).
    destruct x as [ix|v], x' as [ix'|v']; cbn [renamed_input] in Hr; try contradiction; cbn [slice_at].
    - destruct Hx' as [_ Hx']. specialize (Hx' b t Hbb Ht). rewrite Hc by (try assumption; lia). rewrite Hr by assumption. reflexivity.
    - transitivity (bsum d (fun k => (fun q => smul (get v [b; t; q]) (entry (pm_core K m) uniform t q a e)) (s t k))).
      { apply bsum_ext. intros k Hk. rewrite Hr, Hc by assumption. reflexivity. }
      set (F := fun q => smul (get v [b; t; q]) (entry (pm_core K m) uniform t q a e)). refine (eq_trans (eq_sym (lsum_seq K d (fun k => F (s t k)))) _).
      refine (eq_trans (eq_sym (lsum_map K (s t) (seq 0 d) F)) _). rewrite (lsum_perm K _ _ F (renaming_perm n d s t Hs Ht)). apply (lsum_seq K d F).
  Qed.
  Definition rename_word (n : nat) (s : nat -> nat -> nat) (xs : list nat) : list nat := map (fun t => s t (nth t xs 0)) (seq 0 n).
  (** Renaming the letters in the model and in the input leaves the log probabilities unchanged. *)
  Theorem C78_renaming (uniform : bool) (n d D : nat) (s : nat -> nat -> nat) (m m' : pmps K) (x x' : tin K) (slim par slim' par' : bool) (batch : nat) :
    shapes_of K uniform m n d D -> shapes_of K uniform m' n d D -> 0 < n -> pm_emb K m = None -> pm_emb K m' = None ->
    (slim = true -> pm_bias K m = None) -> (slim' = true -> pm_bias K m' = None) ->
    renaming n d s -> renamed uniform n d D s m m' -> wf_input x batch n d -> wf_input x' batch n d -> renamed_input batch n d s x x' ->
    (forall T T', snd (fwd K uniform m x slim par) = Ok T -> snd (fwd K uniform m' x' slim' par') = Ok T' ->
       shp T = [batch] /\ shp T' = [batch] /\ forall b, b < batch -> get T' [b] = get T [b]) /\
    ((0 < Zfun K uniform m n d D)%R -> (forall b, b < batch -> psi K uniform m n d D x b <> s0) ->
       exists T T', snd (fwd K uniform m x slim par) = Ok T /\ snd (fwd K uniform m' x' slim' par') = Ok T').
  Proof.
    intros Hsh Hsh' Hn He He' Hl Hl' Hs Hm Hx Hx' Hr. apply (same_values uniform uniform m m' x x' slim par slim' par' batch n d d D D); try assumption.
    - symmetry. pose proof Hs as [Hs1 Hs2].
      assert (Hnth : forall xs t, t < n -> nth t (rename_word n s xs) 0 = s t (nth t xs 0)).
      { intros xs t Ht. unfold rename_word. rewrite (nth_indep _ 0 (s 0 (nth 0 xs 0))) by (rewrite map_length, seq_length; exact Ht).
        rewrite (map_nth (fun t => s t (nth t xs 0))), seq_nth by exact Ht. reflexivity. }
      assert (Hw : forall xs, In xs (words d n) -> In (rename_word n s xs) (words d n)).
      { intros xs Hxs. destruct (words_facts d n xs Hxs) as [Hlen Hd]. apply in_words; [unfold rename_word; rewrite map_length; apply seq_length|].
        intros y Hy. unfold rename_word in Hy. apply in_map_iff in Hy as (t & <- & Ht). apply in_seq in Ht. apply Hs1; [lia|]. apply Hd. lia. }
      apply (Z_bij uniform uniform m' m n d D D (rename_word n s) Hw).
      + intros xs ys Hxs Hys E. destruct (words_facts d n xs Hxs) as [L1 D1]. destruct (words_facts d n ys Hys) as [L2 D2].
        apply (nth_ext _ _ 0 0); [lia|]. intros t Ht. rewrite L1 in Ht. apply (Hs2 t); [exact Ht|apply D1; exact Ht|apply D2; exact Ht|].
        rewrite <- !Hnth by exact Ht. rewrite E. reflexivity.
      + intros xs Hxs. f_equal. symmetry. apply (renamed_psi uniform n d D s m m' _ _ 1); try assumption; [apply one_row_wf, Hw, Hxs|apply one_row_wf; assumption| |lia].
        intros b t _ Ht. cbn [one_row get nth]. rewrite !Nat2Z.id. apply Hnth, Ht.
    - intros b Hb. f_equal. apply (renamed_psi uniform n d D s m m' x x' batch); assumption.
  Qed.

  (** ** C79: one-hot vectors *)
  Definition onehot_of (batch n d : nat) (ix : tensor Z) (v : tensor K) : Prop :=
    forall b t k, b < batch -> t < n -> k < d -> get v [b; t; k] = if k =? Z.to_nat (get ix [b; t]) then s1 else s0.
  (** Letters and their one-hot vectors give the same values. *)
  Theorem C79_onehot_vectors (uniform : bool) (n d D : nat) (m : pmps K) (ix : tensor Z) (v : tensor K) (slim par slim' par' : bool) (batch : nat) :
    shapes_of K uniform m n d D -> 0 < n -> pm_emb K m = None -> (slim = true -> pm_bias K m = None) -> (slim' = true -> pm_bias K m = None) ->
    wf_input (K := K) (TLong ix) batch n d -> wf_input (TFloat v) batch n d -> onehot_of batch n d ix v ->
    (forall T T', snd (fwd K uniform m (TLong ix) slim par) = Ok T -> snd (fwd K uniform m (TFloat v) slim' par') = Ok T' ->
       shp T = [batch] /\ shp T' = [batch] /\ forall b, b < batch -> get T' [b] = get T [b]) /\
    ((0 < Zfun K uniform m n d D)%R -> (forall b, b < batch -> psi K uniform m n d D (TLong ix) b <> s0) ->
       exists T T', snd (fwd K uniform m (TLong ix) slim par) = Ok T /\ snd (fwd K uniform m (TFloat v) slim' par') = Ok T').
  Proof.
    intros Hsh Hn He Hs Hs' Hx Hv Ho. apply (same_values uniform uniform m m _ _ slim par slim' par' batch n d d D D); try assumption; [reflexivity|].
    intros b Hb. f_equal. unfold psi. rewrite !row_amp_chain. apply sandwich_ext; [reflexivity|reflexivity|]. apply fchain_ext. intros t i j Ht Hi Hj. unfold row_site. f_equal.
    unfold site_mat. cbn [slice_at]. destruct Hx as [_ Hx]. specialize (Hx b t Hb Ht).
    transitivity (bsum d (fun k => if k =? Z.to_nat (get ix [b; t]) then core_at K (pm_core K m) uniform t k i j else s0)).
    { apply bsum_ext. intros k Hk. rewrite Ho by assumption. destruct (k =? _); ring. }
    apply (bsum_delta K d (Z.to_nat (get ix [b; t])) (fun k => core_at K (pm_core K m) uniform t k i j)). lia.
  Qed.

  (** ** C80: bond dimension 1 *)
  (** the weight of letter k at site t *)
  Definition weight (uniform : bool) (m : pmps K) (t k : nat) : K := sadd (entry (pm_core K m) uniform t k 0 0) (bias_at (pm_bias K m) 0 0).
  (** a distribution in which the sites are independent: site t has letter k with probability |w_t(k)|^2 / sum_k' |w_t(k')|^2 *)
  Definition site_prob (uniform : bool) (m : pmps K) (d t k : nat) : R := (abs2 (weight uniform m t k) / bsum (S := R_ops) d (fun k' => abs2 (weight uniform m t k')))%R.
  Definition independent (uniform : bool) (m : pmps K) (n d : nat) (word : nat -> nat) : R := fold_right (fun t p => site_prob uniform m d t (word t) * p)%R 1%R (seq 0 n).

  Fixpoint wprod (uniform : bool) (m : pmps K) (t : nat) (xs : list nat) : K :=
    match xs with [] => s1 | x :: r => smul (weight uniform m t x) (wprod uniform m (S t) r) end.
  Lemma chain_one uniform m xs : forall t, chain (sites 1 (letter_site (pm_core K m) uniform (pm_bias K m)) t xs) 0 0 = wprod uniform m t xs.
  Proof.
    induction xs as [|x xs IH]; intros t; [reflexivity|]. cbn [sites wprod]. rewrite chain_cons. unfold mmul. cbn [bsum]. rewrite <- IH. unfold weight, letter_site. ring.
  Qed.
  Definition totals (uniform : bool) (m : pmps K) (d : nat) (t n : nat) : R := fold_right (fun i p => bsum (S := R_ops) d (fun k => abs2 (weight uniform m i k)) * p)%R 1%R (seq t n).
  Lemma total_words uniform m d n : forall t, lsum (K := R_ops) (words d n) (fun xs => abs2 (wprod uniform m t xs)) = totals uniform m d t n.
  Proof.
    induction n as [|n IH]; intros t; unfold totals; cbn [words seq fold_right].
    - cbn. rewrite Rplus_0_r. unfold abs2. rewrite <- (nof_1 K), nabs_of, Rabs_R1. ring.
    - refine (eq_trans (lsum_flat_map R_cring _ (seq 0 d) _) _). rewrite <- (lsum_seq R_cring d). fold (totals uniform m d (S t) n). rewrite <- (IH (S t)).
      refine (eq_trans _ (lsum_mul_r R_cring (seq 0 d) _ _)). apply (lsum_ext R_cring). intros k Hk.
      refine (eq_trans (lsum_map R_cring (cons k) (words d n) _) _). refine (eq_trans _ (lsum_mul_l R_cring (words d n) _ _)). apply (lsum_ext R_cring). intros xs _. cbn [wprod]. apply abs2_mul.
  Qed.
  Lemma independent_value uniform m n d (f : nat -> nat) : forall t0, (forall t, t0 <= t < t0 + n -> bsum (S := R_ops) d (fun k => abs2 (weight uniform m t k)) <> 0%R) ->
    (abs2 (wprod uniform m t0 (map f (seq t0 n))) / totals uniform m d t0 n)%R = fold_right (fun t p => site_prob uniform m d t (f t) * p)%R 1%R (seq t0 n).
  Proof.
    induction n as [|n IH]; intros t0 H; unfold totals; cbn [seq map wprod fold_right].
    - unfold abs2. rewrite <- (nof_1 K), nabs_of, Rabs_R1. field.
    - fold (totals uniform m d (S t0) n). rewrite <- (IH (S t0)) by (intros t Ht; apply H; lia). rewrite abs2_mul. unfold site_prob.
      assert (Ht : totals uniform m d (S t0) n <> 0%R).
      { assert (G : forall l, (forall t, In t l -> bsum (S := R_ops) d (fun k => abs2 (weight uniform m t k)) <> 0%R) -> fold_right (fun i p => bsum (S := R_ops) d (fun k => abs2 (weight uniform m i k)) * p)%R 1%R l <> 0%R).
        { induction l as [|t l IHl]; intros Hl; cbn [fold_right]; [lra|]. apply Rmult_integral_contrapositive_currified; [apply Hl; left; reflexivity|apply IHl; intros; apply Hl; right; assumption]. }
        apply G. intros t Ht. apply in_seq in Ht. apply H. lia. }
      specialize (H t0 ltac:(lia)). field. split; assumption.
  Qed.
  Lemma totals_zero uniform m d n : forall t0, totals uniform m d t0 n <> 0%R -> forall t, t0 <= t < t0 + n -> bsum (S := R_ops) d (fun k => abs2 (weight uniform m t k)) <> 0%R.
  Proof.
    induction n as [|n IH]; intros t0 H t Ht; [lia|]. unfold totals in H. cbn [seq fold_right] in H. fold (totals uniform m d (S t0) n) in H.
    destruct (Nat.eq_dec t t0) as [->|Hne]; [intros E; apply H; rewrite E; ring|]. apply (IH (S t0)); [intros E; apply H; rewrite E; ring|lia].
  Qed.
  (** With bond dimension 1 the value that forward returns for a row is the logarithm of the probability of that row in a distribution
      in which the sites are independent.  It returns if all letters of the batch have a weight other than 0 and so have the boundary vectors. *)
  Theorem C80_bond_one (uniform : bool) (n d : nat) (m : pmps K) (ix : tensor Z) (slim par : bool) (batch : nat) :
    shapes_of K uniform m n d 1 -> 0 < n -> pm_emb K m = None -> (slim = true -> pm_bias K m = None) -> wf_input (K := K) (TLong ix) batch n d ->
    (forall T, snd (fwd K uniform m (TLong ix) slim par) = Ok T ->
       shp T = [batch] /\ forall b, b < batch -> is_log (get T [b]) (independent uniform m n d (fun t => Z.to_nat (get ix [b; t])))) /\
    (0 < batch -> (forall e, e < 2 -> edge_at (pm_edge K m) e 0 <> s0) -> (forall b t, b < batch -> t < n -> weight uniform m t (Z.to_nat (get ix [b; t])) <> s0) ->
       exists T, snd (fwd K uniform m (TLong ix) slim par) = Ok T).
  Proof.
    intros Hsh Hn He Hs Hx.
    set (e := smul (edge_at (pm_edge K m) 0 0) (edge_at (pm_edge K m) 1 0)).
    assert (Hamp : forall xs, amplitude 1 (edge_at (pm_edge K m) 0) (edge_at (pm_edge K m) 1) (letter_site (pm_core K m) uniform (pm_bias K m)) xs = smul e (wprod uniform m 0 xs)).
    { intros xs. unfold amplitude, sandwich. cbn [bsum]. rewrite chain_one. unfold e. ring. }
    assert (HZ : Zfun K uniform m n d 1 = (abs2 e * totals uniform m d 0 n)%R).
    { unfold Zfun, partition_fn. rewrite <- total_words. refine (eq_trans _ (lsum_mul_l R_cring (words d n) _ _)). apply (lsum_ext R_cring). intros xs _. rewrite Hamp. apply abs2_mul. }
    assert (Hpsi : forall b, psi K uniform m n d 1 (TLong ix) b = smul e (wprod uniform m 0 (map (fun t => Z.to_nat (get ix [b; t])) (seq 0 n)))) by (intros b; unfold psi; cbn [row_amp]; apply Hamp).
    split.
    - intros T ET. destruct (forward_ok K uniform m (TLong ix) slim par batch n d 1 Hsh He Hx Hn Hs) as [H _]. rewrite ET in H. destruct H as (HZ0 & HT & H). split; [exact HT|]. intros b Hb. specialize (H b Hb).
      change (0 < Zfun K uniform m n d 1)%R in HZ0. change (is_log (get T [b]) (abs2 (psi K uniform m n d 1 (TLong ix) b) / Zfun K uniform m n d 1)) in H.
      rewrite HZ in HZ0, H. rewrite Hpsi, abs2_mul in H. unfold independent.
      assert (N1 : abs2 e <> 0%R) by (intros X; rewrite X in HZ0; lra). assert (N2 : totals uniform m d 0 n <> 0%R) by (intros X; rewrite X in HZ0; lra).
      rewrite <- (independent_value uniform m n d _ 0) by (intros t Ht; apply (totals_zero uniform m d n 0 N2); lia).
      match type of H with is_log _ ?a => match goal with |- is_log _ ?c => replace c with a; [exact H|field; split; assumption] end end.
    - intros Hbt Hedge Hw. assert (Hnz : forall b, b < batch -> psi K uniform m n d 1 (TLong ix) b <> s0).
      { intros b Hb. rewrite Hpsi. apply mul_nonzero; [apply mul_nonzero; apply Hedge; lia|].
        assert (G : forall n' t0, t0 + n' <= n -> wprod uniform m t0 (map (fun t => Z.to_nat (get ix [b; t])) (seq t0 n')) <> s0).
        { induction n' as [|n' IH]; intros t0 Ht; cbn [seq map wprod]; [apply one_nonzero|]. apply mul_nonzero; [apply Hw; lia|apply IH; lia]. }
        apply G. lia. }
      destruct (born K uniform m (TLong ix) slim par batch n d 1 Hsh He Hx Hn Hs (psi_Z_pos K uniform m ix batch n d 1 0 Hx Hbt (Hnz 0 Hbt)) Hnz) as (T & ET & _). eauto.
  Qed.

  (** ** C75: slim_eval with a bias is refused, for every input, also with an embedding *)
  Theorem C75_slim_bias_rejected (uniform : bool) (m : pmps K) (x : tin K) (par : bool) :
    pm_bias K m <> None -> forall T, snd (fwd K uniform m x true par) <> Ok T.
  Proof.
    intros Hb T E. destruct uniform; cbn [fwd] in E.
    - unfold forward_unif in E. destruct (tin_shp x) as [|? [|? ?]]; try discriminate E. destruct (embed K m x) as [m' ex] eqn:Em. cbn [snd] in E.
      destruct ex as [x'|]; [|discriminate E]. cbn [rbind] in E. unfold amplitudes in E.
      assert (Eb : pm_bias K m' = pm_bias K m) by (unfold embed in Em; destruct (pm_emb K m); [destruct (emb_forward K e x) in Em|]; injection Em as <- _; reflexivity).
      rewrite Eb in E. destruct (pm_bias K m); [discriminate E|contradiction].
    - unfold forward_fixed in E. destruct (embed K m x) as [m' ex] eqn:Em. cbn [snd] in E.
      destruct ex as [x'|]; [|discriminate E]. cbn [rbind] in E. unfold amplitudes in E.
      assert (Eb : pm_bias K m' = pm_bias K m) by (unfold embed in Em; destruct (pm_emb K m); [destruct (emb_forward K e x) in Em|]; injection Em as <- _; reflexivity).
      rewrite Eb in E. destruct (pm_bias K m); [discriminate E|contradiction].
  Qed.
  Theorem C75_slim_bias_error (uniform : bool) (m : pmps K) (x : tin K) (par : bool) (batch n d : nat) :
    pm_bias K m <> None -> pm_emb K m = None -> wf_input x batch n d -> snd (fwd K uniform m x true par) = Err ValueError.
  Proof.
    intros Hb He Hx. assert (Hxs : exists r, tin_shp x = batch :: n :: r) by (destruct x as [ix|v]; cbn [wf_input tin_shp] in *; [destruct Hx as [Hs _]; rewrite Hs|rewrite Hx]; eauto).
    destruct Hxs as (r & Hxs). destruct uniform; cbn [fwd]; unfold forward_unif, forward_fixed, embed; rewrite ?Hxs, He; cbn [snd rbind]; unfold amplitudes; destruct (pm_bias K m); reflexivity || contradiction.
  Qed.

  (** ** C81: the method log_norm *)
  Definition log_norm_of (uniform : bool) (m : pmps K) (n : nat) : res xr := if uniform then log_norm_unif K m n else log_norm_fixed K m.
  (** log_norm() of a ProbMPS, log_norm(n) of a ProbUnifMPS: the logarithm of the sum of |psi|^2 over all sequences of length n *)
  Theorem C81_log_norm (uniform : bool) (m : pmps K) (n d D : nat) :
    shapes_of K uniform m n d D -> pm_emb K m = None ->
    ((0 < Zfun K uniform m n d D)%R -> exists L, log_norm_of uniform m n = Ok L /\ shp L = [] /\ get L [] = XFin (ln (Zfun K uniform m n d D))) /\
    (Zfun K uniform m n d D = 0%R -> match log_norm_of uniform m n with Ok L => shp L = [] /\ xfinite (get L []) = false | Err e => e = AssertionError end).
  Proof.
    intros Hsh He. destruct (shapes_get K _ _ _ _ _ Hsh) as (Hd & HD & Hc & Hed & Hb). destruct (biased_core K m uniform n d D Hc Hb) as (c & Ec & Hcok).
    assert (E : exists len, log_norm_of uniform m n = get_log_norm K c (tfin K (pm_edge K m)) len None /\ (len = Some (Z.of_nat n) \/ (len = None /\ uniform = false))).
    { destruct uniform; cbn [log_norm_of]; unfold log_norm_unif, log_norm_fixed; rewrite Ec; cbn [rbind]; unfold lamb_of; rewrite He; cbn [rbind]; eexists; (split; [reflexivity|auto]). }
    destruct E as (len & -> & Hlen). apply (get_log_norm_model K m uniform n d D c len Hd HD Hed Hcok Hlen).
  Qed.
  (** what forward returns, plus log_norm, is the logarithm of the squared amplitude *)
  Theorem C81_forward_plus_log_norm (uniform : bool) (m : pmps K) (x : tin K) (slim par : bool) (batch n d D : nat) (T L : xr) :
    shapes_of K uniform m n d D -> pm_emb K m = None -> wf_input x batch n d -> 0 < n -> (slim = true -> pm_bias K m = None) ->
    snd (fwd K uniform m x slim par) = Ok T -> log_norm_of uniform m n = Ok L ->
    exists z, get L [] = XFin z /\ forall b, b < batch -> is_log (xadd (get T [b]) (XFin z)) (abs2 (psi K uniform m n d D x b)).
  Proof.
    intros Hsh He Hx Hn Hs ET EL. destruct (forward_ok K uniform m x slim par batch n d D Hsh He Hx Hn Hs) as [H _]. rewrite ET in H. destruct H as (HZ0 & HT & H).
    change (0 < Zfun K uniform m n d D)%R in HZ0. destruct (C81_log_norm uniform m n d D Hsh He) as [Q _]. destruct (Q HZ0) as (L' & EL' & _ & HL). rewrite EL in EL'. injection EL' as <-.
    exists (ln (Zfun K uniform m n d D)). split; [exact HL|]. intros b Hb. specialize (H b Hb).
    change (is_log (get T [b]) (abs2 (psi K uniform m n d D x b) / Zfun K uniform m n d D)) in H. destruct H as [[Hp E]|[Hp E]]; rewrite E; cbn [xadd].
    - left. assert (Ha : (0 < abs2 (psi K uniform m n d D x b))%R).
      { replace (abs2 (psi K uniform m n d D x b)) with (abs2 (psi K uniform m n d D x b) / Zfun K uniform m n d D * Zfun K uniform m n d D)%R by (field; lra). apply Rmult_lt_0_compat; assumption. }
      split; [exact Ha|]. f_equal. rewrite <- ln_mult by assumption. f_equal. field. lra.
    - right. split; [|reflexivity]. apply Rmult_integral in Hp as [Hp|Hp]; [exact Hp|]. pose proof (Rinv_0_lt_compat _ HZ0). lra.
  Qed.
End Sym.

(** ** Concrete cases that meet the hypotheses *)
Section Examples.
  Ltac psi_calc :=
    unfold psi, row_amp, amplitude, sandwich, pe_m, pe_mb, pe_u, pe_core4, pe_core3, pe_edge, pe_bias, edge_at, row_letters,
      letter_site, entry, bias_at, mmul;
    cbn -[INR]; unfold mmul; cbn -[INR]; rewrite !INR_IZR_INZ; cbn;
    try change (Pos.to_nat 1) with 1; cbn; try lra.
  (** the two-site model with a bias, its mirror image, and all four words *)
  Definition sy_mirror : pmps R_num := mkP R_num
    (mkT [2; 2; 2; 2] (fun i => get pe_core4 [1 - nth 0 i 0; nth 1 i 0; nth 3 i 0; nth 2 i 0])) (mkT [2; 2] (fun i => get pe_edge [1 - nth 0 i 0; nth 1 i 0]))
    (Some (mkT [2; 2] (fun i => get pe_bias [nth 1 i 0; nth 0 i 0]))) None.
  Definition sy_back : tensor Z := mkT [4; 2] (fun i => get pe_all [nth 0 i 0; 1 - nth 1 i 0]).
  Example C76_hyps_met : shapes_of R_num false pe_mb 2 2 2 /\ shapes_of R_num false sy_mirror 2 2 2 /\ mirrored R_num false 2 2 2 pe_mb sy_mirror /\
    wf_input (K := R_num) (TLong pe_all) 4 2 2 /\ wf_input (K := R_num) (TLong sy_back) 4 2 2 /\ reversed R_num 4 2 2 (TLong pe_all) (TLong sy_back) /\
    (forall b, b < 4 -> psi R_num false pe_mb 2 2 2 (TLong pe_all) b <> 0%R) /\ get sy_back [1; 0] <> get pe_all [1; 0].
  Proof.
    split; [apply C09_hyps_met|]. split; [cbn; unfold shapes_fixed; cbn; repeat split; lia|]. split; [split; [|split; [|split]]; intros; reflexivity|].
    split; [apply pe_wf|]. split; [split; [reflexivity|]; intros b t Hb Ht; destruct pe_wf as [_ W]; apply (W b (1 - t)); lia|]. split; [intros b t _ _; reflexivity|].
    split; [apply C08_hyps_met|discriminate].
  Qed.
  (** the letters 0 and 1 exchanged at the first site only *)
  Definition sy_swap (t k : nat) : nat := if t =? 0 then 1 - k else k.
  Definition sy_renamed : pmps R_num := mkP R_num (mkT [2; 2; 2; 2] (fun i => get pe_core4 [nth 0 i 0; sy_swap (nth 0 i 0) (nth 1 i 0); nth 2 i 0; nth 3 i 0])) pe_edge (Some pe_bias) None.
  Definition sy_renamed_all : tensor Z := mkT [4; 2] (fun i => Z.of_nat (sy_swap (nth 1 i 0) (Z.to_nat (get pe_all i)))).
  Example C78_hyps_met : renaming 2 2 sy_swap /\ shapes_of R_num false sy_renamed 2 2 2 /\ renamed R_num false 2 2 2 sy_swap pe_mb sy_renamed /\
    wf_input (K := R_num) (TLong sy_renamed_all) 4 2 2 /\ renamed_input R_num 4 2 2 sy_swap (TLong pe_all) (TLong sy_renamed_all).
  Proof.
    split; [split; unfold sy_swap; [intros [|t] k Ht Hk; cbn [Nat.eqb]; lia|intros [|t] k k' Ht Hk Hk'; cbn [Nat.eqb]; lia]|].
    split; [cbn; unfold shapes_fixed; cbn; repeat split; lia|]. split; [split; [|split]; intros; reflexivity|].
    split; [split; [reflexivity|]; intros b t Hb Ht; destruct b as [|[|[|[|b]]]]; try lia; destruct t as [|[|t]]; try lia; split; vm_compute; congruence|].
    intros b t Hb Ht; destruct b as [|[|[|[|b]]]]; try lia; destruct t as [|[|t]]; try lia; reflexivity.
  Qed.
  Definition sy_onehot : tensor R_num := mkT [4; 2; 2] (fun i => if nth 2 i 0 =? Z.to_nat (get pe_all [nth 0 i 0; nth 1 i 0]) then 1%R else 0%R).
  Example C79_hyps_met : wf_input (K := R_num) (TFloat sy_onehot) 4 2 2 /\ onehot_of R_num 4 2 2 pe_all sy_onehot.
  Proof. split; [reflexivity|]. intros b t k _ _ _. reflexivity. Qed.
  (** bond dimension 1, three sites, two letters with weights 1 + t and 2 + t *)
  Definition sy_one : pmps R_num := mkP R_num (mkT [3; 2; 1; 1] (fun i => INR (1 + nth 0 i 0 + nth 1 i 0))) (mkT [2; 1] (fun _ => 2%R)) None None.
  Definition sy_ix : tensor Z := mkT [2; 3] (fun i => Z.of_nat ((nth 0 i 0 + nth 1 i 0) mod 2)).
  Example C80_hyps_met : shapes_of R_num false sy_one 3 2 1 /\ wf_input (K := R_num) (TLong sy_ix) 2 3 2 /\
    (forall e, e < 2 -> edge_at (pm_edge R_num sy_one) e 0 <> 0%R) /\ (forall b t, b < 2 -> t < 3 -> weight R_num false sy_one t (Z.to_nat (get sy_ix [b; t])) <> 0%R) /\
    independent R_num false sy_one 3 2 (fun t => Z.to_nat (get sy_ix [0; t])) = ((1 / 5) * (9 / 13) * (9 / 25))%R.
  Proof.
    split; [cbn; unfold shapes_fixed; cbn; repeat split; lia|]. split; [split; [reflexivity|]; intros b t Hb Ht; destruct b as [|[|b]]; try lia; destruct t as [|[|[|t]]]; try lia; cbn; lia|].
    split; [intros e _; change (2 <> 0)%R; lra|]. split.
    - intros b t Hb Ht. unfold weight. cbn [sy_one pm_core pm_bias bias_at entry get nth]. change (sadd ?a s0) with (a + 0)%R. rewrite Rplus_0_r. apply not_0_INR. lia.
    - assert (A2 : forall x : R, abs2 (K := R_num) x = (x * x)%R) by (intros x; unfold abs2; cbn; rewrite <- Rabs_mult; apply Rabs_pos_eq; nra).
      unfold independent, site_prob, weight. cbn [seq fold_right]. cbn [bsum R_ops]. rewrite !A2. cbn [sy_one pm_core pm_bias bias_at entry get nth sy_ix].
      cbn. change (Pos.to_nat 1) with 1. cbn. field.
  Qed.
  (** a complex model *)
  Definition sy_c : pmps C_num := mkP C_num (mkT [2; 2; 1; 1] (fun i => (INR (1 + nth 0 i 0), INR (nth 1 i 0)) : cplx)) (mkT [2; 1] (fun i => (1%R, INR (nth 0 i 0)) : cplx)) None None.
  Definition sy_cc : pmps C_num := mkP C_num (mkT [2; 2; 1; 1] (fun i => (INR (1 + nth 0 i 0), Ropp (INR (nth 1 i 0))) : cplx)) (mkT [2; 1] (fun i => (1%R, Ropp (INR (nth 0 i 0))) : cplx)) None None.
  Example C77_hyps_met : shapes_of C_num false sy_c 2 2 1 /\ shapes_of C_num false sy_cc 2 2 1 /\ conjugated C_num false 2 2 1 sy_c sy_cc /\
    wf_input (K := C_num) (TLong pe_all) 4 2 2 /\ conj_input C_num 4 2 2 (TLong pe_all) (TLong pe_all) /\ entry (pm_core C_num sy_c) false 0 1 0 0 <> entry (pm_core C_num sy_cc) false 0 1 0 0.
  Proof.
    split; [cbn; unfold shapes_fixed; cbn; repeat split; lia|]. split; [cbn; unfold shapes_fixed; cbn; repeat split; lia|].
    split; [split; [|split]; intros; cbn; try reflexivity|].
    { cbn. unfold c_conj, c_ofR. cbn. rewrite Ropp_0. reflexivity. }
    split; [apply pe_wf|]. split; [intros b t _ _; reflexivity|].
    cbn. intros E. injection E as E. lra.
  Qed.
  Example C75_hyps_met : pm_bias R_num pe_mb <> None. Proof. discriminate. Qed.
  Example C81_hyps_met : (0 < Zfun R_num false pe_mb 2 2 2)%R.
  Proof. apply (psi_Z_pos R_num false pe_mb pe_all 4 2 2 2 0 pe_wf); [lia|]. apply C08_hyps_met. lia. Qed.
End Examples.
Print Assumptions C75_slim_bias_rejected. Print Assumptions C75_slim_bias_error. Print Assumptions C76_mirror. Print Assumptions C77_conjugation. Print Assumptions C78_renaming.
Print Assumptions C79_onehot_vectors. Print Assumptions C80_bond_one. Print Assumptions C81_log_norm. Print Assumptions C81_forward_plus_log_norm.
