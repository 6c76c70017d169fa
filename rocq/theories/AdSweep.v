(** * AdSweep: the sweeps that combine lone cores, on the level of the kinds of the modules *)
From Verif Require Import Base Scalars Tensor Spec LinAlg EinsumProofs Contractables ContrSpec ContrProofs ContrReduce Utils TorchMps TmSpec TmProofs TmFinal Adaptive AdMerge.

Definition kodd (k : kind) : bool := match k with KI | KO => true | KM _ | KMO _ => false | KR n => Nat.odd n end.
Definition kcomb (merging : bool) (a b : kind) : option kind :=
  match merging, a, b with
  | true, KI, KO => Some (KMO false)
  | true, KO, KI => Some (KMO true)
  | false, KI, KR n => Some (KR (1 + n))
  | false, KR n, KI => Some (KR (n + 1))
  | _, _, _ => None
  end.
(** like [sweep], with the parity of the position only *)
Fixpoint ksweep (mode : option bool) (odd : bool) (l : list kind) : list kind :=
  match l with
  | a :: ((b :: rest) as tail) =>
      match kcomb (match mode with Some _ => true | None => false end) a b, (match mode with Some o => Bool.eqb o odd | None => true end) with
      | Some c, true => c :: (match rest with [x] => [x] | _ => ksweep mode (xorb odd (kodd c)) rest end)
      | _, _ => a :: (match tail with [x] => [x] | _ => ksweep mode (xorb odd (kodd a)) tail end)
      end
  | _ => []
  end.
Fixpoint ksweeps (fuel : nat) (mode : option bool) (l : list kind) : list kind :=
  match fuel with
  | Datatypes.O => []
  | Datatypes.S f => let c := ksweep mode false l in if List.length c =? List.length l then l else ksweeps f mode c
  end.
Lemma kodd_len k : kodd k = Nat.odd (klen1 k).
Proof. destruct k; try reflexivity. cbn [kodd klen1]. rewrite Nat.odd_mul. reflexivity. Qed.
Definition bit (o : nat) : bool := o =? 1.
Lemma odd_bit s : Nat.odd s = bit (s mod 2).
Proof.
  unfold bit. destruct (Nat.odd s) eqn:E.
  - apply Nat.odd_spec in E as (h & ->). rewrite mod_odd. reflexivity.
  - assert (Hs : Nat.even s = true) by (rewrite <- Nat.negb_odd, E; reflexivity). apply Nat.even_spec in Hs as (h & ->). rewrite mod_even. reflexivity.
Qed.
Lemma offset_bit o s : o < 2 -> (o =? s mod 2) = Bool.eqb (bit o) (Nat.odd s).
Proof.
  intros Ho. rewrite odd_bit. pose proof (Nat.mod_upper_bound s 2 ltac:(lia)) as Hs. set (r := s mod 2) in *. clearbody r.
  destruct o as [|[|o]]; [| |lia]; destruct r as [|[|r]]; try lia; reflexivity.
Qed.

Section P.
  Variable K : cring.
  Add Ring Kr : (rth K).
  Notation T := (tensor K).
  Notation mod_ := (module K).
  Implicit Types t u x : T.
  Variables D F O : nat.
  Notation wf := (wf K D F O).
  Notation mequiv := (mequiv K D F O).
  Notation kinds := (kinds K).
  Notation kind_of := (kind_of K).

  Lemma mout_equiv_l t u v : shp t = [D; D; F] -> shp u = [O; D; D] -> shp v = [O; D; D; F] ->
    (forall o l r i, o < O -> l < D -> r < D -> i < F -> get v [o; l; r; i] = bsum D (fun k => smul (get t [l; k; i]) (get u [o; k; r]))) ->
    mequiv [InputSite t; OutputSite u] [MergedOutput v false].
  Proof.
    intros Ht Hu Hv G. split; [repeat constructor; assumption|]. split; [repeat constructor; assumption|]. split; [reflexivity|]. split; [reflexivity|].
    intros ind px o Ho. cbn [csem_all csem sem app mod_len]. unfold size. rewrite Ht, Hu, Hv. cbn [nth].
    apply eqc_two. intros i j Hi Hj. unfold mmul, site_matrix, no_bias.
    transitivity (bsum F (fun i0 => bsum D (fun k => smul (smul (px (ind + 0) i0) (get t [i; k; i0])) (get u [o; k; j])))).
    { apply bsum_ext. intros i0 Hi0. rewrite G by assumption. rewrite <- bsum_mul_l. apply bsum_ext. intros; ring. }
    rewrite bsum_swap. apply bsum_ext. intros k Hk.
    replace (sadd (bsum F (fun i0 => smul (px (ind + 0) i0) (get t [i; k; i0]))) s0) with (bsum F (fun i0 => smul (px (ind + 0) i0) (get t [i; k; i0]))) by ring.
    rewrite <- bsum_mul_r. reflexivity.
  Qed.
  Lemma mout_equiv_r t u v : shp t = [D; D; F] -> shp u = [O; D; D] -> shp v = [O; D; D; F] ->
    (forall o l r i, o < O -> l < D -> r < D -> i < F -> get v [o; l; r; i] = bsum D (fun k => smul (get u [o; l; k]) (get t [k; r; i]))) ->
    mequiv [OutputSite u; InputSite t] [MergedOutput v true].
  Proof.
    intros Ht Hu Hv G. split; [repeat constructor; assumption|]. split; [repeat constructor; assumption|]. split; [reflexivity|]. split; [reflexivity|].
    intros ind px o Ho. cbn [csem_all csem sem app mod_len]. unfold size. rewrite Ht, Hu, Hv. cbn [nth]. rewrite !Nat.add_0_r.
    apply eqc_two. intros i j Hi Hj. unfold mmul, site_matrix, no_bias.
    transitivity (bsum F (fun i0 => bsum D (fun k => smul (get u [o; i; k]) (smul (px ind i0) (get t [k; j; i0]))))).
    { apply bsum_ext. intros i0 Hi0. rewrite G by assumption. rewrite <- bsum_mul_l. apply bsum_ext. intros; ring. }
    rewrite bsum_swap. apply bsum_ext. intros k Hk.
    replace (sadd (bsum F (fun i0 => smul (px ind i0) (get t [k; j; i0]))) s0) with (bsum F (fun i0 => smul (px ind i0) (get t [k; j; i0]))) by ring.
    rewrite <- bsum_mul_l. reflexivity.
  Qed.
  (** a region is the sequence of its sites *)
  Lemma join_equiv t u a b : shp t = [a; D; D; F] -> shp u = [b; D; D; F] -> 0 < a -> 0 < b ->
    exists v bias, join_regions K t u = Ok (Some (InputRegion v true bias)) /\ size 0 v = a + b /\
      mequiv [InputRegion t false None; InputRegion u false None] [InputRegion v true bias].
  Proof.
    intros Ht Hu Ha Hb. unfold join_regions, size. rewrite Ht, Hu. cbn [tl nth list_eqb]. rewrite !Nat.eqb_refl. cbn [andb assert_ rbind].
    set (v := mkT _ _). assert (Hv : shp v = [a + b; D; D; F]) by reflexivity.
    destruct (input_region_any K D F v true _ Hv) as (bias & E & Hbias). rewrite E. cbn [rbind]. exists v, bias. split; [reflexivity|]. split; [reflexivity|].
    assert (S1 : shp (slice0 0 a v) = [a; D; D; F]) by reflexivity.
    assert (S2 : shp (slice0 a (a + b - a) v) = [b; D; D; F]) by (unfold slice0; cbn [shp]; rewrite Hv; cbn [tl]; repeat f_equal; lia).
    apply mequiv_sym. eapply mequiv_trans; [apply (slice_equiv K D F O v true bias false None (a + b) a); auto; try lia; apply no_bias_ok|].
    change [InputRegion (slice0 0 a v) false None; InputRegion (slice0 a (a + b - a) v) false None] with ([InputRegion (slice0 0 a v) false None] ++ [InputRegion (slice0 a (a + b - a) v) false None]).
    change [InputRegion t false None; InputRegion u false None] with ([InputRegion t false None] ++ [InputRegion u false None]).
    assert (W : forall w n, shp w = [n; D; D; F] -> 0 < n -> wf (InputRegion w false None)) by (intros w n Hw Hn; exists n; split; [exact Hn|]; split; [exact Hw|apply no_bias_ok]).
    apply mequiv_app.
    - split; [repeat constructor; eauto|]. split; [repeat constructor; eauto|]. split; [unfold region_len, region_core_len; cbn [fold_right mod_len mod_core_len]; unfold size; rewrite S1, Ht; reflexivity|]. split; [unfold region_len, region_core_len; cbn [fold_right mod_len mod_core_len]; unfold size; rewrite S1, Ht; reflexivity|].
      intros ind px o Ho. cbn [csem_all csem]. rewrite !app_nil_r. unfold size. rewrite S1, Ht. cbn [nth].
      split; [apply sq_rcl|]. split; [apply sq_rcl|]. intros i j Hi Hj. apply (chain_eq_chain K D); [|exact Hi]. apply rcl_ext. intros s l r Hs Hl Hr.
      unfold site_matrix. f_equal. apply bsum_ext. intros k Hk. unfold slice0, v. cbn [get hd tl Nat.add]. unfold size. rewrite ?Ht. cbn [nth].
      destruct (Nat.ltb_spec s a); [reflexivity|lia].
    - split; [repeat constructor; eauto|]. split; [repeat constructor; eauto|]. split; [unfold region_len, region_core_len; cbn [fold_right mod_len mod_core_len]; unfold size; rewrite S2, Hu; reflexivity|]. split; [unfold region_len, region_core_len; cbn [fold_right mod_len mod_core_len]; unfold size; rewrite S2, Hu; reflexivity|].
      intros ind px o Ho. cbn [csem_all csem]. rewrite !app_nil_r. unfold size. rewrite S2, Hu. cbn [nth].
      split; [apply sq_rcl|]. split; [apply sq_rcl|]. intros i j Hi Hj. apply (chain_eq_chain K D); [|exact Hi]. apply rcl_ext. intros s l r Hs Hl Hr.
      unfold site_matrix. f_equal. apply bsum_ext. intros k Hk. unfold slice0, v. cbn [get hd tl]. unfold size. rewrite ?Ht. cbn [nth].
      destruct (Nat.ltb_spec (a + s) a); [lia|]. replace (a + s - a) with s by lia. reflexivity.
  Qed.
  Lemma drop_bias t ub b n : shp t = [n; D; D; F] -> 0 < n -> bias_ok K ub b n D -> mequiv [InputRegion t ub b] [InputRegion t false None].
  Proof.
    intros Ht Hn Hb. assert (W1 : wf (InputRegion t ub b)) by (exists n; auto).
    assert (W2 : wf (InputRegion t false None)) by (exists n; split; [exact Hn|]; split; [exact Ht|apply no_bias_ok]).
    split; [repeat constructor; exact W1|]. split; [repeat constructor; exact W2|]. split; [reflexivity|]. split; [reflexivity|].
    intros ind px o Ho. apply eqc_refl. apply (sq_csem_all K D F O). repeat constructor. exact W2.
  Qed.
  Lemma one_region t : shp t = [D; D; F] -> mequiv [InputSite t] [InputRegion (unsq_front 1 t) false None].
  Proof.
    intros Ht. assert (S1 : shp (unsq_front 1 t) = [1; D; D; F]) by (unfold unsq_front; cbn [shp repeat app]; rewrite Ht; reflexivity).
    apply mequiv_sym. eapply mequiv_trans; [apply (sel_first K D F O); [exact S1|apply no_bias_ok]|].
    replace (sel0 (unsq_front 1 t) 0) with t.
    - apply mequiv_refl. repeat constructor. exact Ht.
    - unfold sel0, unsq_front. cbn [shp repeat app tl get skipn]. destruct t; reflexivity.
  Qed.
  Lemma combine_ok merging a b : wf a -> wf b ->
    (combine_cores K merging a b = Ok None /\ kcomb merging (kind_of a) (kind_of b) = None) \/
    exists c, combine_cores K merging a b = Ok (Some c) /\ kcomb merging (kind_of a) (kind_of b) = Some (kind_of c) /\ mequiv [a; b] [c].
  Proof.
    intros Ha Hb. destruct a as [t ub bi|t|t|t|t lo], b as [u ub' bi'|u|u|u|u lo']; destruct merging; try (left; split; reflexivity); right; cbn [combine_cores wf wf_mod] in *.
    - (* region, site *)
      destruct Ha as (n & Hn & Ht & Hbi).
      assert (S1 : shp (unsq_front 1 u) = [1; D; D; F]) by (unfold unsq_front; cbn [shp repeat app]; rewrite Hb; reflexivity).
      destruct (join_equiv t (unsq_front 1 u) n 1 Ht S1 Hn ltac:(lia)) as (v & bias & E & Hv & Q). exists (InputRegion v true bias).
      split; [exact E|]. split; [cbn; unfold size at 1; rewrite Ht; cbn [nth]; rewrite Hv; reflexivity|].
      eapply mequiv_trans; [|exact Q]. apply (mequiv_app K D F O [_] [_] [_] [_]); [apply (drop_bias t ub bi n); auto|apply one_region; exact Hb].
    - destruct (e_out_in K t u O D D D F Ha Hb) as (v & E & Hv & G). rewrite E. cbn [rbind]. unfold merged_output, ndim. rewrite Hv. cbn [List.length Nat.eqb assert_ rbind].
      eexists. split; [reflexivity|]. split; [reflexivity|]. apply mout_equiv_r; assumption.
    - destruct Hb as (n & Hn & Hu & Hbi).
      assert (S1 : shp (unsq_front 1 t) = [1; D; D; F]) by (unfold unsq_front; cbn [shp repeat app]; rewrite Ha; reflexivity).
      destruct (join_equiv (unsq_front 1 t) u 1 n S1 Hu ltac:(lia) Hn) as (v & bias & E & Hv & Q). exists (InputRegion v true bias).
      split; [exact E|]. split; [cbn; unfold size at 1; rewrite Hu; cbn [nth]; rewrite Hv; reflexivity|].
      eapply mequiv_trans; [|exact Q]. apply (mequiv_app K D F O [_] [_] [_] [_]); [apply one_region; exact Ha|apply (drop_bias u ub' bi' n); auto].
    - destruct (e_in_out K t u O D D D F Ha Hb) as (v & E & Hv & G). rewrite E. cbn [rbind]. unfold merged_output, ndim. rewrite Hv. cbn [List.length Nat.eqb assert_ rbind].
      eexists. split; [reflexivity|]. split; [reflexivity|]. apply mout_equiv_l; assumption.
  Qed.

  Definition km (mode : option nat) : option bool := option_map bit mode.
  Definition mode_ok (mode : option nat) : Prop := match mode with Some o => o < 2 | None => True end.
  Definition sweep' mode s (l : list mod_) : res (list mod_) := match l with [x] => Ok [x] | _ => sweep K mode s l end.
  Definition ksweep' mode odd l : list kind := match l with [x] => [x] | _ => ksweep mode odd l end.
  Lemma sweep'_step mode s a b rest :
    sweep' mode s (a :: b :: rest) =
    let* c := combine_cores K (match mode with Some _ => true | None => false end) a b in
    match c, (match mode with Some offset => offset =? s mod 2 | None => true end) with
    | Some c, true =>
        let* _ := (match mode with Some _ => assert_ (mod_core_len c =? mod_core_len a + mod_core_len b) | None => Ok tt end) in
        let* r := sweep' mode (s + mod_core_len c) rest in Ok (c :: r)
    | _, _ => let* r := sweep' mode (s + mod_core_len a) (b :: rest) in Ok (a :: r)
    end.
  Proof. reflexivity. Qed.
  Lemma ksweep'_step mode odd a b rest :
    ksweep' mode odd (a :: b :: rest) =
    match kcomb (match mode with Some _ => true | None => false end) a b, (match mode with Some o => Bool.eqb o odd | None => true end) with
    | Some c, true => c :: ksweep' mode (xorb odd (kodd c)) rest
    | _, _ => a :: ksweep' mode (xorb odd (kodd a)) (b :: rest)
    end.
  Proof. reflexivity. Qed.
  Lemma odd_next s m : Nat.odd (s + mod_core_len m) = xorb (Nat.odd s) (kodd (kind_of m)).
  Proof. rewrite kodd_len, (kind_core_len K), Nat.odd_add. reflexivity. Qed.
  Lemma sweep_ok mode : mode_ok mode -> forall n s l, List.length l <= n -> Forall wf l ->
    exists l', sweep' mode s l = Ok l' /\ kinds l' = ksweep' (km mode) (Nat.odd s) (kinds l) /\ mequiv l l' /\
      List.length l' <= List.length l /\ (List.length l' = List.length l -> l' = l).
  Proof.
    intros Hm. induction n as [|n IH]; intros s l Hn W.
    - destruct l; [|cbn in Hn; lia]. exists []. repeat split; try reflexivity; try constructor.
    - destruct l as [|a [|b rest]].
      + exists []. repeat split; try reflexivity; try constructor.
      + exists [a]. split; [reflexivity|]. split; [reflexivity|]. split; [apply mequiv_refl; exact W|]. split; [reflexivity|]. intros; reflexivity.
      + rewrite sweep'_step. cbn [map AdMerge.kinds]. change (map (AdMerge.kind_of K) rest) with (kinds rest). rewrite ksweep'_step.
        inversion W as [|? ? Wa W']; subst. inversion W' as [|? ? Wb Wr]; subst. cbn [List.length] in Hn.
        assert (Skip : exists l', (let* r := sweep' mode (s + mod_core_len a) (b :: rest) in Ok (a :: r)) = Ok l' /\
                   kinds l' = kind_of a :: ksweep' (km mode) (xorb (Nat.odd s) (kodd (kind_of a))) (kind_of b :: kinds rest) /\ mequiv (a :: b :: rest) l' /\
                   List.length l' <= List.length (a :: b :: rest) /\ (List.length l' = List.length (a :: b :: rest) -> l' = a :: b :: rest)).
        { destruct (IH (s + mod_core_len a) (b :: rest) ltac:(cbn [List.length]; lia) W') as (l' & E & Kl & Q & Hl & Hs). rewrite E. cbn [rbind].
          exists (a :: l'). split; [reflexivity|]. split; [cbn [AdMerge.kinds map]; change (map (AdMerge.kind_of K) l') with (kinds l'); rewrite Kl, odd_next; reflexivity|].
          split; [apply (mequiv_app K D F O [a] [a] (b :: rest) l'); [apply mequiv_refl; repeat constructor; exact Wa|exact Q]|].
          cbn [List.length] in *. split; [lia|]. intros H. f_equal. apply Hs. lia. }
        assert (Em : (match mode with Some offset => offset =? s mod 2 | None => true end) = (match km mode with Some o => Bool.eqb o (Nat.odd s) | None => true end)).
        { destruct mode as [o|]; [|reflexivity]. cbn [km option_map]. apply offset_bit. exact Hm. }
        assert (Ek : (match km mode with Some _ => true | None => false end) = (match mode with Some _ => true | None => false end)) by (destruct mode; reflexivity).
        rewrite Em, Ek. destruct (combine_ok (match mode with Some _ => true | None => false end) a b Wa Wb) as [(E & Ek')|(c & E & Ek' & Q)]; rewrite E, Ek'; cbn [rbind].
        * exact Skip.
        * destruct (match km mode with Some o => Bool.eqb o (Nat.odd s) | None => true end); [|exact Skip].
          destruct (IH (s + mod_core_len c) rest ltac:(lia) Wr) as (l' & E' & Kl & Q' & Hl & Hs).
          assert (Hc : mod_core_len c = mod_core_len a + mod_core_len b).
          { destruct Q as (_ & _ & _ & Hc & _). unfold region_core_len in Hc. cbn [fold_right] in Hc. lia. }
          assert (Ea : (match mode with Some _ => assert_ (mod_core_len c =? mod_core_len a + mod_core_len b) | None => Ok tt end) = Ok tt).
          { destruct mode; [|reflexivity]. rewrite Hc, Nat.eqb_refl. reflexivity. }
          rewrite Ea, E'. cbn [rbind]. exists (c :: l'). split; [reflexivity|].
          split; [cbn [AdMerge.kinds map]; change (map (AdMerge.kind_of K) l') with (kinds l'); rewrite Kl, odd_next; reflexivity|].
          split; [apply (mequiv_app K D F O [a; b] [c] rest l'); [exact Q|exact Q']|].
          cbn [List.length] in *. split; [lia|]. intros H. lia.
  Qed.
  Lemma kinds_length l : List.length (kinds l) = List.length l. Proof. apply map_length. Qed.
  Lemma sweeps_ok mode : mode_ok mode -> forall fuel l, Forall wf l -> 2 <= List.length (ksweeps fuel (km mode) (kinds l)) -> List.length l < fuel ->
    exists l', sweeps K fuel mode l = Ok l' /\ kinds l' = ksweeps fuel (km mode) (kinds l) /\ mequiv l l'.
  Proof.
    intros Hm. induction fuel as [|fuel IH]; intros l W H2 Hf; [lia|]. cbn [ksweeps sweeps] in *.
    destruct l as [|a [|b rest]].
    - cbn in H2. lia.
    - cbn in H2. destruct fuel; cbn in H2; lia.
    - destruct (sweep_ok mode Hm _ 0 (a :: b :: rest) (le_n _) W) as (l' & E & Kl & Q & Hl & Hs).
      change (sweep' mode 0 (a :: b :: rest)) with (sweep K mode 0 (a :: b :: rest)) in E.
      change (ksweep' (km mode) (Nat.odd 0) (kinds (a :: b :: rest))) with (ksweep (km mode) false (kinds (a :: b :: rest))) in Kl.
      rewrite E. cbn [rbind]. rewrite <- Kl in *. rewrite !kinds_length in *.
      destruct (Nat.eqb_spec (List.length l') (List.length (a :: b :: rest))) as [El|El].
      + eexists. split; [reflexivity|]. split; [reflexivity|]. apply mequiv_refl; exact W.
      + destruct (IH l') as (l2 & E2 & K2 & Q2); [apply Q|exact H2|lia|]. exists l2. split; [exact E2|]. split; [exact K2|]. eapply mequiv_trans; eassumption.
  Qed.
  (** if everything collapses *)
  Lemma sweeps_short mode : mode_ok mode -> forall fuel l, Forall wf l -> List.length (ksweeps fuel (km mode) (kinds l)) <= 1 -> List.length l < fuel ->
    sweeps K fuel mode l = Ok [].
  Proof.
    intros Hm. induction fuel as [|fuel IH]; intros l W H2 Hf; [lia|]. cbn [ksweeps sweeps] in *.
    destruct l as [|a [|b rest]].
    - reflexivity.
    - cbn [sweep rbind List.length Nat.eqb]. destruct fuel; [cbn in Hf; lia|]. reflexivity.
    - destruct (sweep_ok mode Hm _ 0 (a :: b :: rest) (le_n _) W) as (l' & E & Kl & Q & Hl & Hs).
      change (sweep' mode 0 (a :: b :: rest)) with (sweep K mode 0 (a :: b :: rest)) in E.
      change (ksweep' (km mode) (Nat.odd 0) (kinds (a :: b :: rest))) with (ksweep (km mode) false (kinds (a :: b :: rest))) in Kl.
      rewrite E. cbn [rbind]. rewrite <- Kl in *. rewrite !kinds_length in *.
      destruct (Nat.eqb_spec (List.length l') (List.length (a :: b :: rest))) as [El|El].
      + rewrite kinds_length in H2. cbn in H2. lia.
      + apply IH; [apply Q|exact H2|lia].
  Qed.
End P.
