(** * AdFlip: one flip: split, equalize, merge at the other offset, store *)
From Coq Require Import Reals Lra.
From Verif Require Import Base Scalars Tensor Spec LinAlg Utils2Proofs Contractables ContrProofs Utils UtilsSpec UtilsProofs SvdProofs SvdFinal P_Svd TorchMps TmSpec TmProofs TmFinal Adaptive AdMerge AdSweep AdKinds AdSplit AdSpec AdUnmerge AdEqual.

Section Flip.
  Notation K := R_cring.
  Notation T := (tensor R_ops).
  Notation mod_ := (module R_cring).
  Variable svd : T -> T * T * T.
  Variables D F O : nat.
  Hypotheses (HD : 0 < D) (HF : 0 < F) (HO : 0 < O).
  Notation wf := (wf K D F O).
  Notation mequiv := (mequiv K D F O).
  Notation kinds := (kinds K).
  Notation kind_of := (kind_of K).

  (** the list of a MergedLinearRegion at offset o, p sites on the left, q on the right of the output *)
  Definition merged_list (o p q : nat) (l : list mod_) : Prop := Forall wf l /\ kinds l = mk o p q.
  Lemma merged_no_region o p q l : o < 2 -> 1 < p + q -> merged_list o p q l -> Forall (fun m : mod_ => match m with InputRegion _ _ _ => False | _ => True end) l.
  Proof.
    intros Ho Hn [_ Hk]. destruct (mk_facts o p q Ho Hn) as (_ & _ & _ & _ & NR & _). rewrite <- Hk in NR.
    apply Forall_forall. intros m Hm. specialize (NR (kind_of m) (in_map _ _ _ Hm)). destruct m; [exact NR|exact Logic.I..].
  Qed.
  Lemma nz_all l : Forall nz l <-> Forall (fun x => (0 < x)%R) (flat_map get_norm l).
  Proof.
    induction l as [|m l IH]; [split; constructor|]. cbn [flat_map]. rewrite Forall_app, <- IH. split.
    - intros H. inversion H; subst. split; assumption.
    - intros [A B]. constructor; assumption.
  Qed.
  Lemma unmerged_of_kinds l : (forall k, In k (kinds l) -> match k with KI | KO | KR _ => True | _ => False end) -> Forall unmerged_mod l.
  Proof. intros H. apply Forall_forall. intros m Hm. specialize (H (kind_of m) (in_map _ _ _ Hm)). destruct m; exact H. Qed.
  Lemma unm_of_kinds l : (forall k, In k (kinds l) -> match k with KI | KR _ => True | _ => False end) -> Forall (unm K) l.
  Proof. intros H. apply Forall_forall. intros m Hm. specialize (H (kind_of m) (in_map _ _ _ Hm)). destruct m; exact H. Qed.
  Lemma joinedb_in b p k : In k (joinedb b p) -> match k with KI | KR _ => True | _ => False end.
  Proof. unfold joinedb, joined. destruct (b && (p =? 2)); [|destruct p as [|[|p]]]; cbn; intros H; repeat (destruct H as [<-|H]; [exact Logic.I|]); destruct H. Qed.
  Lemma klen_joinedb b p : klen (joinedb b p) = p.
  Proof. unfold joinedb, joined. destruct (Nat.eqb_spec p 2) as [->|]; destruct b; cbn; try reflexivity; destruct p as [|[|p]]; cbn; lia. Qed.

  Variable cutoff : R.
  Hypothesis Hcut : (0 < cutoff)%R.
  Notation healthy := (healthy svd D F O cutoff).
  Notation lossless := (lossless svd D F O cutoff).
  Notation reported := (reported svd D F O cutoff).

  Lemma unmerge_ok o p q l : o < 2 -> 1 < p + q -> merged_list o p q l -> healthy l ->
    exists e bonds svs, unmerge_mods svd cutoff l = Ok (e, None :: bonds, None :: svs) /\
      Forall wf e /\ kinds e = joinedb (bit o) p ++ KO :: joinedb (bit ((o + p + 1) mod 2)) q /\
      reported l bonds svs /\ ((lossless l -> mequiv l e) /\ exists l', Forall2 (truncated_mod svd D F O cutoff) l l' /\ mequiv l' e) /\
      exists c, (0 < c)%R /\ Forall (fun x => x = c) (flat_map get_norm e).
  Proof.
    intros Ho Hn Hm Hh. pose proof (merged_no_region o p q l Ho Hn Hm) as NR. destruct Hm as [W Hk].
    destruct (unmerge_each_ok svd D F O HD HF HO cutoff Hcut l W NR Hh) as (ms & bonds & svs & E & Wm & Km & Nm & Rm & Lm).
    destruct (mk_facts o p q Ho Hn) as (_ & _ & _ & _ & _ & Fu). rewrite Hk, Fu in Km.
    pose proof (unmerge_kinds o p q Ho Hn) as Uk. cbv zeta in Uk. rewrite <- Km in Uk.
    rewrite kinds_length in Uk.
    assert (L2 : 2 <= List.length (ksweeps (S (List.length ms)) None (kinds ms))).
    { rewrite Uk, app_length. cbn [List.length]. unfold joinedb, joined. destruct (bit o && (p =? 2)); [cbn; lia|]. destruct p as [|[|p]]; cbn [List.length]; try lia.
      destruct (bit ((o + 0 + 1) mod 2) && (q =? 2)); [cbn; lia|]. destruct q as [|[|q]]; cbn [List.length]; lia. }
    destruct (sweeps_ok K D F O None Logic.I (S (List.length ms)) ms Wm L2 ltac:(lia)) as (c & Ec & Kc & Qc).
    change (km None) with (@None bool) in Kc. rewrite Uk in Kc.
    pose proof (sweeps_norm D F O _ ms Wm L2 ltac:(lia) c Ec) as Nc.
    destruct (equalize_ok D F O c) as (e & Ee & Ke & Qe & Ne).
    - apply Qc.
    - apply unmerged_of_kinds. rewrite Kc. intros k Hi. apply in_app_or in Hi as [Hi|[<-|Hi]]; [|exact Logic.I|];
      apply joinedb_in in Hi; destruct k; try exact Hi; exact Logic.I.
    - apply nz_all. rewrite Nc. apply nz_all. exact Nm.
    - assert (Hi : In KO (kinds c)) by (rewrite Kc; apply in_or_app; right; left; reflexivity).
      apply in_map_iff in Hi as (m & Em & Hi). destruct m; try discriminate Em. intros Hnil.
      assert (X : In (norm t) (flat_map get_norm c)) by (apply in_flat_map; eexists; split; [exact Hi|left; reflexivity]). rewrite Hnil in X. destruct X.
    - exists e, bonds, svs. split; [|split; [|split; [|split; [|split]]]].
      + unfold unmerge_mods. rewrite E. cbn [rbind]. rewrite Ec. cbn [rbind]. rewrite Ee. reflexivity.
      + apply Qe.
      + rewrite Ke. exact Kc.
      + exact Rm.
      + destruct Lm as [Lm (l' & Tl & Ql)]. split; [intros Hl; eapply mequiv_trans; [apply Lm, Hl|]; eapply mequiv_trans; eassumption|].
        exists l'. split; [exact Tl|]. eapply mequiv_trans; [exact Ql|]. eapply mequiv_trans; eassumption.
      + eexists. split; [apply exp_pos|]. rewrite Ne. apply Forall_forall. intros x Hx. apply repeat_spec in Hx. exact Hx.
  Qed.

  Lemma kinds_cut e ka kb : kinds e = ka ++ KO :: kb -> exists l A r, e = l ++ OutputSite A :: r /\ kinds l = ka /\ kinds r = kb.
  Proof.
    intros H. unfold AdMerge.kinds in H. apply map_eq_app in H as (l & r' & -> & Hl & Hr). apply map_eq_cons in Hr as (m & r & -> & Hm & Hr).
    destruct m; try discriminate Hm. exists l, t, r. auto.
  Qed.
  (** the shape of the tensor is determined by the kind *)
  Definition kshape (k : kind) : list nat :=
    match k with KI => [D; D; F] | KO => [O; D; D] | KM n => [n; D; D; F; F] | KMO _ => [O; D; D; F] | KR n => [n; D; D; F] end.
  Lemma wf_shape m : wf m -> shp (mod_tensor m) = kshape (kind_of m).
  Proof.
    destruct m; intros W; cbn [AdMerge.kind_of mod_tensor kshape]; unfold size; try exact W.
    - destruct W as (n & _ & Ht & _). rewrite Ht. reflexivity.
    - destruct W as (n & _ & Ht). rewrite Ht. reflexivity.
  Qed.
  Lemma store_ok old new : Forall wf old -> Forall wf new -> kinds old = kinds new -> Forall (no_region K) old -> store K old new = Ok new.
  Proof.
    intros Wo Wn Hk NR. unfold store. rewrite <- (kinds_length K old), <- (kinds_length K new), Hk, Nat.eqb_refl. cbn [assert_ rbind].
    revert new Wn Hk. induction old as [|a old IH]; intros new Wn Hk; destruct new as [|b new]; cbn [AdMerge.kinds map] in Hk; try discriminate Hk; [reflexivity|].
    injection Hk as Hab Hk. inversion Wo; subst. inversion Wn; subst. inversion NR; subst. cbn [store_each].
    rewrite (wf_shape a), (wf_shape b), Hab, list_eqb_refl by assumption. cbn [assert_ rbind]. rewrite IH by assumption. cbn [rbind]. repeat f_equal.
    destruct a, b; try discriminate Hab; try reflexivity; [cbn in *; contradiction|]. injection Hab as ->. reflexivity.
  Qed.
  Lemma store_short old new : List.length old <> List.length new -> store K old new = Err AssertionError.
  Proof. intros H. unfold store. apply Nat.eqb_neq in H. rewrite H. reflexivity. Qed.

  Lemma merged_out o p q l : o < 2 -> 1 < p + q -> merged_list o p q l -> List.length (outs K l) = 1.
  Proof.
    intros Ho Hn [_ Hk]. destruct (mk_facts o p q Ho Hn) as (_ & _ & X & _). rewrite <- Hk in X. rewrite <- X. clear.
    induction l as [|m l IH]; [reflexivity|]. unfold outs in *. cbn [filter AdMerge.kinds map]. destruct m; cbn [is_output AdMerge.kind_of isout List.length]; unfold AdMerge.kinds in IH; rewrite ?IH; reflexivity.
  Qed.
  Lemma merged_cores o p q l : o < 2 -> 1 < p + q -> merged_list o p q l -> region_core_len K l = p + q + 1.
  Proof. intros Ho Hn [_ Hk]. destruct (mk_facts o p q Ho Hn) as (_ & _ & _ & X & _). rewrite kinds_core_len, Hk. exact X. Qed.
  (** one more core than inputs *)
  Lemma core_len_inputs l : region_core_len K l = region_len K l + List.length (outs K l).
  Proof.
    induction l as [|m l IH]; [reflexivity|]. unfold region_core_len, region_len, outs in *. cbn [fold_right filter]. rewrite IH.
    clear HD HF HO. destruct m; cbn [mod_core_len mod_len is_output List.length]; lia.
  Qed.
  Lemma merged_len o p q l : o < 2 -> 1 < p + q -> merged_list o p q l -> region_len K l = p + q.
  Proof. intros Ho Hn H. pose proof (core_len_inputs l) as C. rewrite (merged_cores o p q l Ho Hn H), (merged_out o p q l Ho Hn H) in C. clear HD HF HO. lia. Qed.
  Lemma merged_good o p q l : o < 2 -> 1 < p + q -> merged_list o p q l -> good_mods K D F O l.
  Proof.
    intros Ho Hn H. split; [apply H|]. split; [|apply (merged_out o p q); assumption].
    eapply Forall_impl; [|apply (merged_no_region o p q l Ho Hn H)]. intros m Hm. destruct m; [destruct Hm|exact Logic.I..].
  Qed.

  (** merging the list that unmerging left *)
  Lemma flip_ok o p q l old : o < 2 -> 1 < p + q -> merged_list o p q l -> healthy l -> merged_list ((o + 1) mod 2) p q old ->
    exists e bonds svs, unmerge_mods svd cutoff l = Ok (e, None :: bonds, None :: svs) /\ reported l bonds svs /\ Forall wf e /\ ((lossless l -> mequiv l e) /\ exists l', Forall2 (truncated_mod svd D F O cutoff) l l' /\ mequiv l' e) /\
      (exists c, (0 < c)%R /\ Forall (fun x => x = c) (flat_map get_norm e)) /\
      (~ bad o p q -> exists new, (let* n := merge_mods K ((o + 1) mod 2) e in store K old n) = Ok new /\ merged_list ((o + 1) mod 2) p q new /\ mequiv e new) /\
      (bad o p q -> (let* n := merge_mods K ((o + 1) mod 2) e in store K old n) = Err AssertionError).
  Proof.
    intros Ho Hn Hm Hh Hold. destruct (unmerge_ok o p q l Ho Hn Hm Hh) as (e & bonds & svs & E & We & Ke & Re & Le & Ne).
    exists e, bonds, svs. split; [exact E|]. split; [exact Re|]. split; [exact We|]. split; [exact Le|]. split; [exact Ne|].
    assert (Ho' : (o + 1) mod 2 < 2) by (apply Nat.mod_upper_bound; lia).
    destruct (kinds_cut e _ _ Ke) as (a & A & b & -> & Ka & Kb).
    apply Forall_app in We as [Wa We]. inversion We as [|? ? WA Wb]; subst.
    destruct (merge_mods_ok K D F O ((o + 1) mod 2) a A b p Ho' Wa) as [M1 M2]; try assumption.
    { apply unm_of_kinds. rewrite Ka. intros k. apply joinedb_in. }
    { apply unm_of_kinds. rewrite Kb. intros k. apply joinedb_in. }
    { rewrite kinds_core_len, Ka. apply klen_joinedb. }
    rewrite Ka, Kb in M1, M2. change (fmerge _ _) with (remerged o p q) in M1, M2.
    destruct (mk_facts ((o + 1) mod 2) p q Ho' Hn) as (_ & L2 & _).
    split; intros Hb.
    - rewrite remerged_good in M1 by assumption. destruct (M1 L2) as (m & Em & Km & Qm). exists m. rewrite Em. cbn [rbind].
      assert (Hml : merged_list ((o + 1) mod 2) p q m) by (split; [apply Qm|exact Km]).
      split; [|split; assumption]. apply store_ok; [apply Hold|apply Qm|rewrite Km; apply Hold|].
      eapply Forall_impl; [|apply (merged_no_region _ p q old Ho' Hn Hold)]. intros x Hx. destruct x; exact Hx.
    - destruct (remerged_bad o p q Ho Hn Hb) as [B2 Bl]. destruct (M1 B2) as (m & Em & Km & Qm). rewrite Em. cbn [rbind]. apply store_short.
      rewrite <- (kinds_length K m), Km, <- (kinds_length K old). destruct Hold as [_ ->]. auto.
  Qed.
End Flip.
