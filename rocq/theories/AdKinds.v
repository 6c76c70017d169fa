(** * AdKinds: merging and unmerging on the level of the kinds of the modules *)
From Verif Require Import Base Scalars Tensor Spec LinAlg EinsumProofs Contractables ContrSpec ContrProofs ContrReduce Utils TorchMps TmSpec TmProofs TmFinal Adaptive AdMerge AdSweep.

(** the pieces of a region of n sites that starts at a site of parity [odd] relative to the offset *)
Inductive rform : bool -> nat -> list kind -> Prop :=
| RF_0 b : rform b 0 []
| RF_e h : rform false (2 * S h) [KM (S h)]
| RF_o0 : rform false 1 [KI]
| RF_o h : rform false (2 * S h + 1) [KM (S h); KI]
| RF_1 : rform true 1 [KI]
| RF_t h : rform true (2 * S h + 1) [KI; KM (S h)]
| RF_2 : rform true 2 [KI; KI]
| RF_m h : rform true (2 * S h + 2) [KI; KM (S h); KI].
Lemma rk_form o n : o < 2 -> rform (bit o) n (rk o n).
Proof.
  intros Ho. unfold rk. destruct (Nat.eqb_spec n 0) as [->|Hn]; [constructor|].
  destruct o as [|[|o]]; [| |lia]; change (bit 0) with false; change (bit 1) with true; cbn [Nat.eqb app].
  - rewrite Nat.sub_0_r. destruct (mod2_cases n) as [E|E].
    + pose proof (even_half n E) as En. set (h := n / 2) in *. clearbody h. subst n. rewrite E. destruct h as [|h]; [lia|]. cbn [Nat.eqb app]. constructor.
    + pose proof (odd_half n E) as En. set (h := n / 2) in *. clearbody h. subst n. rewrite E. destruct h as [|h]; cbn [Nat.eqb app]; [apply RF_o0|constructor].
  - destruct (mod2_cases (n - 1)) as [E|E].
    + pose proof (even_half _ E) as En. rewrite E. set (h := (n - 1) / 2) in *. clearbody h. destruct h as [|h]; cbn [Nat.eqb app].
      * replace n with 1 by lia. constructor.
      * replace n with (2 * S h + 1) by lia. constructor.
    + pose proof (odd_half _ E) as En. rewrite E. set (h := (n - 1) / 2) in *. clearbody h. destruct h as [|h]; cbn [Nat.eqb app].
      * replace n with 2 by lia. constructor.
      * replace n with (2 * S h + 2) by lia. constructor.
Qed.
Definition fmerge (o : bool) (l : list kind) : list kind := ksweeps (S (List.length l)) (Some o) l.
(** the kinds of the merged list of a model with p sites, an output core and q sites *)
Definition mk (o p q : nat) : list kind := fmerge (bit o) (rk o p ++ KO :: rk ((o + p + 1) mod 2) q).
Lemma par_after o p : o < 2 -> bit ((o + p + 1) mod 2) = negb (xorb (bit o) (Nat.odd p)).
Proof. intros Ho. rewrite <- odd_bit, !Nat.odd_add. destruct o as [|[|o]]; [| |lia]; destruct (Nat.odd p); reflexivity. Qed.

(** every pair that starts at a site of the parity of the offset is merged *)
Fixpoint aligned (o : bool) (odd : bool) (l : list kind) : Prop :=
  match l with
  | [] => True
  | (KI | KO) :: r => (o <> odd \/ r = []) /\ aligned o (negb odd) r
  | (KM n) :: r => o = odd /\ 0 < n /\ aligned o odd r
  | KMO _ :: r => o = odd /\ aligned o odd r
  | KR _ :: _ => False
  end.
Definition unmerged1 (k : kind) : list kind := match k with KM n => [KR (2 * n)] | KMO true => [KO; KI] | KMO false => [KI; KO] | k => [k] end.
Definition isout (k : kind) : bool := match k with KO | KMO _ => true | _ => false end.
Lemma odd_2h1 h : Nat.odd (2 * h + 1) = true. Proof. apply Nat.odd_spec. exists h. lia. Qed.
Lemma odd_2h h : Nat.odd (2 * h) = false. Proof. rewrite Nat.odd_mul. reflexivity. Qed.
Lemma odd_2h2 h : Nat.odd (2 * h + 2) = false. Proof. replace (2 * h + 2) with (2 * (h + 1)) by lia. apply odd_2h. Qed.
Ltac parity H := rewrite ?odd_2h1, ?odd_2h, ?odd_2h2 in H; cbn [xorb negb Nat.odd Nat.even] in H.

Definition joined (p : nat) : list kind := match p with 0 => [] | 1 => [KI] | _ => [KR p] end.
Lemma mk_facts o p q : o < 2 -> 1 < p + q ->
  aligned (bit o) false (mk o p q) /\ 2 <= List.length (mk o p q) /\ List.length (filter isout (mk o p q)) = 1 /\ klen (mk o p q) = p + q + 1 /\
  (forall k, In k (mk o p q) -> match k with KR _ => False | _ => True end) /\
  flat_map unmerged1 (mk o p q) = flat_map unmerged1 (rk o p) ++ KO :: flat_map unmerged1 (rk ((o + p + 1) mod 2) q).
Proof.
  intros Ho Hn. unfold mk. pose proof (rk_form o p Ho) as Fp.
  pose proof (rk_form ((o + p + 1) mod 2) q ltac:(apply Nat.mod_upper_bound; lia)) as Fq. rewrite par_after in Fq by exact Ho.
  set (b := bit o) in *. clearbody b. set (l := rk o p) in *. clearbody l. set (r := rk ((o + p + 1) mod 2) q) in *. clearbody r.
  set (b' := negb (xorb b (Nat.odd p))) in *.
  destruct Fp; unfold b' in Fq; clear b'; parity Fq; try destruct b; cbn [negb] in Fq; inversion Fq; subst; try lia;
  unfold fmerge; cbn -[Nat.mul Nat.add]; 
  (split; [repeat split; auto; try lia; left; discriminate|]; split; [lia|]; split; [reflexivity|]; split; [lia|]; split; [intros k [<-|Hk]; [exact Logic.I|]; repeat (destruct Hk as [<-|Hk]; [exact Logic.I|]); destruct Hk|reflexivity]).
Qed.

(** what unmerging leaves of the p sites; two lone sites are not joined *)
Definition joinedb (b : bool) (p : nat) : list kind := if b && (p =? 2) then [KI; KI] else joined p.
Lemma joinedb_off p : joinedb false p = joined p. Proof. reflexivity. Qed.
Lemma unmerge_kinds o p q : o < 2 -> 1 < p + q ->
  let u := flat_map unmerged1 (rk o p) ++ KO :: flat_map unmerged1 (rk ((o + p + 1) mod 2) q) in
  ksweeps (S (List.length u)) None u = joinedb (bit o) p ++ KO :: joinedb (bit ((o + p + 1) mod 2)) q.
Proof.
  intros Ho Hn. pose proof (rk_form o p Ho) as Fp.
  pose proof (rk_form ((o + p + 1) mod 2) q ltac:(apply Nat.mod_upper_bound; lia)) as Fq. rewrite par_after in * by exact Ho.
  set (b := bit o) in *. clearbody b. set (l := rk o p) in *. clearbody l. set (r := rk ((o + p + 1) mod 2) q) in *. clearbody r.
  set (b' := negb (xorb b (Nat.odd p))) in *. clearbody b'. clear o Ho.
  assert (J1 : forall h, joined (2 * S h) = [KR (2 * S h)]) by (intros h; replace (2 * S h) with (S (S (2 * h))) by lia; reflexivity).
  assert (J2 : forall h, joined (2 * S h + 1) = [KR (2 * S h + 1)]) by (intros h; replace (2 * S h + 1) with (S (S (2 * h + 1))) by lia; reflexivity).
  assert (J3 : forall h, joined (2 * S h + 2) = [KR (2 * S h + 2)]) by (intros h; replace (2 * S h + 2) with (S (S (2 * h + 2))) by lia; reflexivity).
  assert (N1 : forall h, (2 * S h + 1 =? 2) = false) by (intros h; apply Nat.eqb_neq; lia).
  assert (N2 : forall h, (2 * S h + 2 =? 2) = false) by (intros h; apply Nat.eqb_neq; lia).
  assert (A1 : forall h, S (2 * S h) = 2 * S h + 1) by (intros; lia).
  assert (A2 : forall h, S (2 * S h + 1) = 2 * S h + 2) by (intros; lia).
  assert (A3 : forall h, S (2 * S h) + 1 = 2 * S h + 2) by (intros; lia).
  assert (A4 : forall h, 2 * S h + 1 + 1 = 2 * S h + 2) by (intros; lia).
  destruct Fp; destruct Fq; try lia; try destruct b; cbn -[Nat.mul Nat.add joinedb];
  unfold joinedb; cbn [andb Nat.eqb app]; rewrite ?J1, ?J2, ?J3, ?N1, ?N2, ?A1, ?A2, ?A3; cbn [Nat.eqb joined app]; rewrite ?A1, ?A2, ?A3, ?A4; try reflexivity.
Qed.

(** InputRegion._merge on the kinds *)
Fixpoint mks (s : nat) (l : list kind) : list kind :=
  match l with
  | [] => []
  | KR n :: r => rk (s mod 2) n ++ mks (s + n) r
  | k :: r => k :: mks (s + klen1 k) r
  end.
Lemma rk_one o : o < 2 -> rk o 1 = [KI].
Proof. intros Ho. destruct o as [|[|o]]; [reflexivity|reflexivity|lia]. Qed.
Lemma mks_joined s p : mks s (joined p) = rk (s mod 2) p.
Proof.
  destruct p as [|[|p]]; [reflexivity| |].
  - cbn [joined mks]. rewrite rk_one by (apply Nat.mod_upper_bound; lia). reflexivity.
  - cbn [joined mks]. apply app_nil_r.
Qed.
(** merging what unmerging left at the other offset *)
Definition remerged o p q : list kind :=
  let o' := (o + 1) mod 2 in
  fmerge (bit o') (mks o' (joinedb (bit o) p) ++ KO :: mks (o' + p + 1) (joinedb (bit ((o + p + 1) mod 2)) q)).
Definition bad (o p q : nat) : Prop := (o = 1 /\ p = 2) \/ ((o + p + 1) mod 2 = 1 /\ q = 2).
Lemma remerged_good o p q : o < 2 -> ~ bad o p q -> remerged o p q = mk ((o + 1) mod 2) p q.
Proof.
  intros Ho Hb. unfold remerged, mk, bad in *.
  assert (E1 : joinedb (bit o) p = joined p).
  { unfold joinedb. destruct (Nat.eqb_spec p 2) as [->|]; [|rewrite andb_false_r; reflexivity]. destruct o as [|[|o]]; [reflexivity|tauto|lia]. }
  assert (E2 : joinedb (bit ((o + p + 1) mod 2)) q = joined q).
  { unfold joinedb. destruct (Nat.eqb_spec q 2) as [->|]; [|rewrite andb_false_r; reflexivity].
    pose proof (Nat.mod_upper_bound (o + p + 1) 2 ltac:(lia)). destruct ((o + p + 1) mod 2) as [|[|z]]; [reflexivity|tauto|lia]. }
  rewrite E1, E2, !mks_joined. rewrite Nat.mod_mod by lia. reflexivity.
Qed.
Lemma remerged_bad o p q : o < 2 -> 1 < p + q -> bad o p q -> 2 <= List.length (remerged o p q) /\ List.length (remerged o p q) <> List.length (mk ((o + 1) mod 2) p q).
Proof.
  intros Ho Hn Hb. unfold remerged, mk, bad in *.
  assert (Ho' : (o + 1) mod 2 < 2) by (apply Nat.mod_upper_bound; lia).
  assert (Bo : bit ((o + 1) mod 2) = negb (bit o)) by (destruct o as [|[|o]]; [reflexivity|reflexivity|lia]).
  destruct Hb as [[E1 E2]|[E1 E2]].
  - subst o p. change ((1 + 1) mod 2) with 0. change (bit 0) with false. change ((1 + 2 + 1) mod 2) with 0. change ((0 + 2 + 1) mod 2) with 1.
    change (bit 0) with false. rewrite joinedb_off, mks_joined. change ((0 + 2 + 1) mod 2) with 1.
    pose proof (rk_form 1 q ltac:(lia)) as Fq. change (bit 1) with true in *. set (r := rk 1 q) in *. clearbody r.
    inversion Fq; subst; cbn; lia.
  - subst q. assert (E : joinedb (bit o) p = joined p).
    { unfold joinedb. destruct (Nat.eqb_spec p 2) as [->|]; [|rewrite andb_false_r; reflexivity].
      destruct o as [|[|o]]; [reflexivity|discriminate E1|lia]. }
    rewrite E, mks_joined, E1. rewrite (Nat.mod_mod (o + 1)) by lia. change (joinedb (bit 1) 2) with [KI; KI]. cbn [mks klen1].
    assert (E3 : ((o + 1) mod 2 + p + 1) mod 2 = 0).
    { rewrite <- Nat.add_assoc, Nat.add_mod_idemp_l by lia. replace (o + 1 + (p + 1)) with (o + p + 1 + 1) by lia.
      rewrite <- Nat.add_mod_idemp_l by lia. rewrite E1. reflexivity. }
    rewrite E3. pose proof (rk_form ((o + 1) mod 2) p Ho') as Fp.
    pose proof (par_after ((o + 1) mod 2) p Ho') as Pa. rewrite E3 in Pa. change (bit 0) with false in Pa. 
    change (rk 0 2) with [KM 1].
    set (b := bit ((o + 1) mod 2)) in *. clearbody b. set (l := rk ((o + 1) mod 2) p) in *. clearbody l.
    destruct Fp; parity Pa; try destruct b; try discriminate Pa; cbn; lia.
Qed.

Section P.
  Variable K : cring.
  Notation T := (tensor K).
  Notation mod_ := (module K).
  Variables D F O : nat.
  Notation wf := (wf K D F O).
  Notation mequiv := (mequiv K D F O).
  Notation kinds := (kinds K).
  Notation kind_of := (kind_of K).
  Definition unm (m : mod_) : Prop := match m with InputSite _ | InputRegion _ _ _ => True | _ => False end.

  Lemma merge_internal_ok l : forall s, Forall wf l -> Forall unm l -> exists l', merge_internal K s l = Ok l' /\ kinds l' = mks s (kinds l) /\ mequiv l l'.
  Proof.
    induction l as [|m l IH]; intros s W U.
    - exists []. split; [reflexivity|]. split; [reflexivity|]. apply mequiv_refl. constructor.
    - inversion W as [|? ? Wm Wl]; subst. inversion U as [|? ? Um Ul]; subst.
      cbn [merge_internal]. destruct m as [t ub b|t|t|t|t lo]; cbn [unm] in Um; try contradiction; cbn [assert_ rbind].
      + destruct Wm as (n & Hn & Ht & Hb).
        destruct (region_merge_ok K D F O t n (s mod 2) ub b Ht Hn) as (l1 & E1 & _ & K1 & Q1); [apply Nat.mod_upper_bound; lia|exact Hb|].
        rewrite E1. cbn [rbind]. destruct (IH (s + mod_core_len (InputRegion t ub b)) Wl Ul) as (l2 & E2 & K2 & Q2). rewrite E2. cbn [rbind].
        exists (l1 ++ l2). split; [reflexivity|]. split.
        * unfold AdMerge.kinds in *. rewrite map_app, K1, K2. cbn [map AdMerge.kind_of mks mod_core_len mod_len]. unfold size. rewrite Ht. reflexivity.
        * apply (mequiv_app K D F O [_] l1 l l2); assumption.
      + destruct (IH (s + mod_core_len (InputSite t)) Wl Ul) as (l2 & E2 & K2 & Q2). rewrite E2. cbn [rbind].
        exists ([InputSite t] ++ l2). split; [reflexivity|]. split.
        * unfold AdMerge.kinds in *. rewrite map_app, K2. reflexivity.
        * apply (mequiv_app K D F O [_] [_] l l2); [apply mequiv_refl; repeat constructor; exact Wm|exact Q2].
  Qed.
  Lemma merge_internal_app l l' s : merge_internal K s (l ++ l') = let* a := merge_internal K s l in let* b := merge_internal K (s + region_core_len K l) l' in Ok (a ++ b).
  Proof.
    revert s. induction l as [|m l IH]; intros s; cbn [app merge_internal region_core_len fold_right rbind].
    - rewrite Nat.add_0_r. destruct (merge_internal K s l'); reflexivity.
    - destruct (assert_ _) as [[]|e]; cbn [rbind]; [|reflexivity]. destruct (match m with InputRegion t _ _ => _ | _ => _ end) as [ms|e]; cbn [rbind]; [|reflexivity].
      rewrite IH. unfold region_core_len. rewrite Nat.add_assoc. destruct (merge_internal K (s + mod_core_len m) l) as [a|e]; cbn [rbind]; [|reflexivity].
      destruct (merge_internal K _ l') as [b|e]; cbn [rbind]; [|reflexivity]. rewrite app_assoc. reflexivity.
  Qed.
  Lemma premerge_ok o l A r p : Forall wf l -> Forall unm l -> Forall wf r -> Forall unm r -> shp A = [O; D; D] -> region_core_len K l = p ->
    exists m, merge_internal K o (l ++ OutputSite A :: r) = Ok m /\ kinds m = mks o (kinds l) ++ KO :: mks (o + p + 1) (kinds r) /\ mequiv (l ++ OutputSite A :: r) m.
  Proof.
    intros Wl Ul Wr Ur HA Hp. rewrite merge_internal_app.
    destruct (merge_internal_ok l o Wl Ul) as (l1 & E1 & K1 & Q1). rewrite E1. cbn [rbind].
    cbn [merge_internal mod_core_len assert_ rbind]. rewrite Hp.
    destruct (merge_internal_ok r (o + p + 1) Wr Ur) as (r1 & E2 & K2 & Q2). rewrite E2. cbn [rbind].
    exists (l1 ++ [OutputSite A] ++ r1). split; [reflexivity|]. split.
    - unfold AdMerge.kinds in *. rewrite !map_app, K1, K2. reflexivity.
    - apply (mequiv_app K D F O l l1 ([OutputSite A] ++ r) ([OutputSite A] ++ r1)); [exact Q1|]. apply mequiv_app; [apply mequiv_refl; repeat constructor; exact HA|exact Q2].
  Qed.
  Lemma merge_mods_ok o l A r p : o < 2 -> Forall wf l -> Forall unm l -> Forall wf r -> Forall unm r -> shp A = [O; D; D] -> region_core_len K l = p ->
    let k := fmerge (bit o) (mks o (kinds l) ++ KO :: mks (o + p + 1) (kinds r)) in
    (2 <= List.length k -> exists m, merge_mods K o (l ++ OutputSite A :: r) = Ok m /\ kinds m = k /\ mequiv (l ++ OutputSite A :: r) m) /\
    (List.length k <= 1 -> merge_mods K o (l ++ OutputSite A :: r) = Ok []).
  Proof.
    intros Ho Wl Ul Wr Ur HA Hp k. destruct (premerge_ok o l A r p Wl Ul Wr Ur HA Hp) as (m & E & Km & Q).
    unfold merge_mods. assert (Eo : (o =? 0) || (o =? 1) = true) by (destruct o as [|[|o]]; [reflexivity|reflexivity|lia]). rewrite Eo, E. cbn [assert_ rbind].
    assert (Ek : ksweeps (S (List.length m)) (km (Some o)) (kinds m) = k) by (unfold k, fmerge; rewrite <- Km, kinds_length; reflexivity).
    split; intros Hk.
    - destruct (sweeps_ok K D F O (Some o) Ho (S (List.length m)) m) as (m' & E' & K' & Q'); [apply Q|rewrite Ek; exact Hk|lia|].
      exists m'. split; [exact E'|]. split; [rewrite K'; exact Ek|]. eapply mequiv_trans; eassumption.
    - apply (sweeps_short K D F O (Some o) Ho); [apply Q|rewrite Ek; exact Hk|lia].
  Qed.
End P.
