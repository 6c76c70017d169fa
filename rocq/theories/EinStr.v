(** * EinStr: the subscript strings built by Contractable.__mul__ (contractables.py:106-134), for any bond strings *)
From Verif Require Import Base Scalars Tensor Contractables Utils SvdProofs Param.

Lemma lower_plain x : inb x lowercases = true -> islower x = true.
Proof.
  unfold inb. rewrite existsb_exists. intros (c & I & Ec). apply Ascii.eqb_eq in Ec. subst x.
  assert (H : forallb islower lowercases = true) by (vm_compute; reflexivity). rewrite forallb_forall in H. apply H, I.
Qed.
Lemma lowers_plain l : forallb (fun x => inb x lowercases) l = true -> plain l.
Proof. unfold plain. rewrite !forallb_forall. intros H x I. apply lower_plain, H, I. Qed.
Lemma plain_In l : plain l <-> forall x, In x l -> islower x = true.
Proof. unfold plain. apply forallb_forall. Qed.
Lemma inb_In c l : inb c l = true <-> In c l.
Proof. apply inlabels_spec. Qed.
Lemma inb_not c l : inb c l = false <-> ~ In c l.
Proof. rewrite <- inb_In. destruct (inb c l); split; congruence. Qed.
Lemma nodupb_NoDup l : nodupb l = true -> NoDup l.
Proof.
  induction l as [|x l IH]; cbn [nodupb]; [constructor|]. intros H. apply andb_true_iff in H as [A B]. constructor; [|apply IH, B].
  apply negb_true_iff in A. apply inb_not, A.
Qed.
Lemma split_eins_comma l rest : plain l -> forall cur acc, split_eins (l ++ chars "," ++ rest) cur acc = split_eins rest [] (rev (rev l ++ cur) :: acc).
Proof.
  induction l as [|x l IH]; intros H cur acc.
  - reflexivity.
  - apply plain_cons in H as [Hx H]. cbn [app split_eins].
    rewrite (lower_neq x ","%char Hx eq_refl), (lower_neq x "-"%char Hx eq_refl). rewrite IH by exact H. cbn [rev]. rewrite <- app_assoc. reflexivity.
Qed.
Lemma split_eins_last l out : plain l -> forall cur acc, split_eins (l ++ chars "->" ++ out) cur acc = (rev acc ++ [rev cur ++ l], out).
Proof.
  induction l as [|x l IH]; intros H cur acc.
  - cbn. rewrite app_nil_r. reflexivity.
  - apply plain_cons in H as [Hx H]. cbn [app split_eins].
    rewrite (lower_neq x ","%char Hx eq_refl), (lower_neq x "-"%char Hx eq_refl). rewrite IH by exact H.
    cbn [rev]. rewrite <- app_assoc. reflexivity.
Qed.
Lemma parse_eins_two la lb out : plain la -> plain lb -> parse_eins (str (la ++ chars "," ++ lb ++ chars "->" ++ out)) = ([la; lb], out).
Proof.
  intros Ha Hb. unfold parse_eins. fold (chars (str (la ++ chars "," ++ lb ++ chars "->" ++ out))). rewrite chars_str.
  rewrite split_eins_comma by exact Ha. rewrite split_eins_last by exact Hb. rewrite app_nil_r, rev_involutive. reflexivity.
Qed.

Lemma pop_spec {A} (l : list A) x r : pop l = Some (x, r) -> l = r ++ [x].
Proof.
  unfold pop. destruct (rev l) as [|y q] eqn:Er; [discriminate|]. intros [= <- <-]. rewrite <- (rev_involutive l), Er. reflexivity.
Qed.
Definition lrb (c : ascii) : bool := inb c (chars "blr").
(** renaming: labels b, l, r are kept; a new label comes from the free ones and is no longer free *)
Lemma rename_spec bs0 : forall bs1 free r f, rename bs0 bs1 free = Some (r, f) -> NoDup free ->
  (forall c, In c f -> In c free) /\ NoDup f /\
  (forall (sh : list nat) c d, In (c, d) (combine r sh) -> In (c, d) (combine bs1 sh) \/ (In c free /\ ~ In c f)) /\
  (forall c, In c r -> In c bs1 \/ (In c free /\ ~ In c f)) /\
  (forall c, ~ In c free -> In c (chars "blr") -> count_occ Ascii.ascii_dec r c = count_occ Ascii.ascii_dec bs1 c).
Proof.
  induction bs1 as [|c bs1 IH]; intros free r f H Hn; cbn [rename] in H.
  - injection H as <- <-. repeat split; auto.
  - destruct (inb c bs0 && negb (inb c (chars "blr"))) eqn:Ec.
    + destruct (pop free) as [[d free']|] eqn:Ep; [|discriminate H]. destruct (rename bs0 bs1 free') as [[r' f']|] eqn:Er; [|discriminate H].
      injection H as <- <-. apply pop_spec in Ep. subst free.
      assert (Hn' : NoDup free' /\ ~ In d free').
      { apply NoDup_rev in Hn. rewrite rev_app_distr in Hn. cbn in Hn. inversion Hn as [|? ? N1 N2]; subst. split; [|rewrite in_rev; exact N1].
        rewrite <- (rev_involutive free'). apply NoDup_rev, N2. }
      destruct Hn' as [Hn' Hd]. destruct (IH _ _ _ Er Hn') as (A & B & C & F & G).
      assert (Hdf : ~ In d f') by (intros I; apply Hd, A, I).
      split; [intros x Hx; apply in_or_app; left; apply A, Hx|]. split; [exact B|]. split; [|split].
      * intros [|n sh] x e; cbn [combine In]; [intros []|]. intros [[= <- <-]|I].
        { right. split; [apply in_or_app; right; left; reflexivity|exact Hdf]. }
        destruct (C sh x e I) as [I'|[I1 I2]]; [left; right; exact I'|right; split; [apply in_or_app; left; exact I1|exact I2]].
      * intros x [<-|I]; [right; split; [apply in_or_app; right; left; reflexivity|exact Hdf]|].
        destruct (F x I) as [I'|[I1 I2]]; [left; right; exact I'|right; split; [apply in_or_app; left; exact I1|exact I2]].
      * intros x Hx Hl. cbn [count_occ]. apply andb_true_iff in Ec as [_ Ec]. apply negb_true_iff, inb_not in Ec.
        destruct (Ascii.ascii_dec d x) as [->|]; [exfalso; apply Hx, in_or_app; right; left; reflexivity|].
        destruct (Ascii.ascii_dec c x) as [->|]; [contradiction|]. apply G; [|exact Hl]. intros I. apply Hx, in_or_app. left. exact I.
    + destruct (rename bs0 bs1 free) as [[r' f']|] eqn:Er; [|discriminate H]. injection H as <- <-.
      destruct (IH _ _ _ Er Hn) as (A & B & C & F & G). split; [exact A|]. split; [exact B|]. split; [|split].
      * intros [|n sh] x e; cbn [combine In]; [intros []|]. intros [I|I]; [left; left; exact I|]. destruct (C sh x e I); auto.
      * intros x [<-|I]; [left; left; reflexivity|]. destruct (F x I); auto. left. right. assumption.
      * intros x Hx Hl. cbn [count_occ]. rewrite (G x Hx Hl). reflexivity.
Qed.
Lemma replace_combine a b l : forall (sh : list nat) c d, In (c, d) (combine (replace_first a b l) sh) -> In (c, d) (combine l sh) \/ (c = b /\ In (a, d) (combine l sh)).
Proof.
  induction l as [|x l IH]; intros sh c d; cbn [replace_first]; [left; assumption|]. destruct sh as [|n sh].
  { destruct (Ascii.eqb x a); intros []. }
  destruct (Ascii.eqb_spec x a) as [->|N]; cbn [combine In]; intros [[= <- <-]|I]; auto.
  destruct (IH sh c d I) as [|[]]; auto.
Qed.
Lemma replace_in a b l c : In c (replace_first a b l) -> In c l \/ c = b.
Proof.
  induction l as [|x l IH]; cbn [replace_first]; [intros []|]. destruct (Ascii.eqb_spec x a) as [->|N]; intros [<-|I]; auto.
  - left. right. exact I.
  - left. left. reflexivity.
  - destruct (IH I); auto. left. right. assumption.
Qed.
Lemma replace_gone a b l : a <> b -> count_occ Ascii.ascii_dec l a <= 1 -> ~ In a (replace_first a b l).
Proof.
  intros N. induction l as [|x l IH]; cbn [replace_first count_occ]; [intros _ []|].
  destruct (Ascii.eqb_spec x a) as [->|Nx].
  - destruct (Ascii.ascii_dec a a); [|contradiction]. intros H [Eb|I]; [congruence|]. apply (count_occ_In Ascii.ascii_dec) in I. lia.
  - destruct (Ascii.ascii_dec x a); [contradiction|]. intros H [Eb|I]; [contradiction|]. exact (IH H I).
Qed.
Lemma filter_in_out c l specials : In c l -> ~ In c specials -> In c (filter (fun c => negb (inb c specials)) l).
Proof. intros I N. apply filter_In. split; [exact I|]. apply negb_true_iff, inb_not, N. Qed.

(** labels l and r (and the summed one) have size at most D *)
Definition lr_le (D : nat) (c : ascii) (d : nat) : Prop := c = "l"%char \/ c = "r"%char -> d <= D.

Theorem ein_strings_spec bs0 bs1 a b out D sh0 sh1 :
  fmt_ok "r"%char bs0 = true -> fmt_ok "l"%char bs1 = true -> ein_strings bs0 bs1 = Some (a, b, out) ->
  sh_all (lr_le D) bs0 sh0 -> sh_all (lr_le D) bs1 sh1 ->
  exists sc, plain a /\ plain b /\ plain out /\ (exists r, out = "b"%char :: r) /\
    sh_all (fun c d => c = sc \/ c = "l"%char \/ c = "r"%char -> d <= D) a sh0 /\
    sh_all (fun c d => c = sc \/ c = "l"%char \/ c = "r"%char -> d <= D) b sh1 /\
    (forall c, In c a \/ In c b -> ~ In c out -> c = sc).
Proof.
  unfold fmt_ok. intros F0 F1 He P0 P1. rewrite !andb_true_iff in F0, F1. destruct F0 as (((B0 & N0) & L0) & I0), F1 as (((B1 & N1) & L1) & I1).
  apply inb_In in I0, I1. apply nodupb_NoDup in N0, N1. pose proof (lowers_plain _ L0) as Pl0. pose proof (lowers_plain _ L1) as Pl1.
  unfold ein_strings in He. set (free := filter (fun c => negb (inb c bs0 || inb c bs1)) lowercases) in He.
  assert (Fs : forall c, In c free -> ~ In c bs0 /\ ~ In c bs1 /\ islower c = true).
  { intros c Hc. apply filter_In in Hc as [Hc1 Hc2]. apply negb_true_iff, orb_false_iff in Hc2 as [X Y]. apply inb_not in X, Y.
    split; [exact X|]. split; [exact Y|]. apply lower_plain, inb_In, Hc1. }
  assert (Fn : NoDup free) by (apply NoDup_filter; apply nodupb_NoDup; vm_compute; reflexivity).
  destruct (rename bs0 bs1 free) as [[bs1' free']|] eqn:Er; [|discriminate He].
  destruct (rename_spec _ _ _ _ _ Er Fn) as (R1 & R2 & R3 & R4 & R5).
  destruct (pop free') as [[sc rest]|] eqn:Ep; [|discriminate He]. apply pop_spec in Ep.
  assert (Hsc : In sc free') by (rewrite Ep; apply in_or_app; right; left; reflexivity).
  destruct (Fs sc (R1 _ Hsc)) as (S0 & S1' & Sl).
  assert (Nl : "l"%char <> sc) by (intros X; subst sc; contradiction). assert (Nr : "r"%char <> sc) by (intros X; subst sc; contradiction).
  assert (Hl : ~ In "l"%char free) by (intros X; apply Fs in X; tauto). assert (Hr : ~ In "r"%char free) by (intros X; apply Fs in X; tauto).
  injection He as <- <- <-. exists sc.
  set (a := replace_first "r"%char sc bs0). set (b := replace_first "l"%char sc bs1').
  assert (Pa : plain a). { apply plain_In. intros x Hx. apply replace_in in Hx as [Hx| ->]; [|exact Sl]. revert x Hx. apply plain_In, Pl0. }
  assert (Pb : plain b).
  { apply plain_In. intros x Hx. apply replace_in in Hx as [Hx| ->]; [|exact Sl]. destruct (R4 x Hx) as [I|[I _]]; [revert x Hx I; intros x _; revert x; apply plain_In, Pl1|apply Fs, I]. }
  assert (Ra : ~ In "r"%char a). { apply replace_gone; [exact Nr|]. apply (NoDup_count_occ Ascii.ascii_dec), N0. }
  assert (Rb : ~ In "l"%char b).
  { apply replace_gone; [exact Nl|]. rewrite R5; [|exact Hl|right; left; reflexivity]. apply (NoDup_count_occ Ascii.ascii_dec), N1. }
  split; [exact Pa|]. split; [exact Pb|]. split; [|split; [|split; [|split]]].
  - apply plain_In. intros x Hx. cbn [app In] in Hx. destruct Hx as [<-|Hx]; [reflexivity|]. rewrite !in_app_iff in Hx.
    destruct Hx as [Hx|[Hx|[Hx|Hx]]].
    + apply filter_In in Hx as [Hx _]. revert x Hx. apply plain_In, Pa.
    + apply filter_In in Hx as [Hx _]. revert x Hx. apply plain_In, Pb.
    + destruct (inb _ a); [destruct Hx as [<-|[]]; reflexivity|destruct Hx].
    + destruct (inb _ b); [destruct Hx as [<-|[]]; reflexivity|destruct Hx].
  - eexists. reflexivity.
  - intros c d I. apply replace_combine in I as [I|[-> I]].
    + intros [->|H]; [apply in_combine_l in I; contradiction|]. exact (P0 c d I H).
    + intros _. apply (P0 _ _ I). right. reflexivity.
  - intros c d I. apply replace_combine in I as [I|[-> I]].
    + destruct (R3 _ _ _ I) as [J|[J1 J2]].
      * intros [->|H]; [apply in_combine_l in J; contradiction|]. exact (P1 c d J H).
      * intros [->|[->| ->]]; contradiction.
    + intros _. destruct (R3 _ _ _ I) as [J|[J1 J2]]; [|contradiction]. apply (P1 _ _ J). left. reflexivity.
  - intros c Hc No. destruct (Ascii.eqb_spec c sc) as [->|Ns]; [reflexivity|]. exfalso. apply No. cbn [app In].
    destruct (Ascii.eqb_spec c "b"%char) as [->|Nb]; [left; reflexivity|]. right. rewrite !in_app_iff.
    destruct (Ascii.eqb_spec c "l"%char) as [->|Nl'].
    { destruct Hc as [Hc|Hc]; [|contradiction]. right. right. left. apply inb_In in Hc. rewrite Hc. left. reflexivity. }
    destruct (Ascii.eqb_spec c "r"%char) as [->|Nr'].
    { destruct Hc as [Hc|Hc]; [contradiction|]. right. right. right. apply inb_In in Hc. rewrite Hc. left. reflexivity. }
    assert (Ns' : ~ In c (sc :: chars "blr")) by (cbn; intuition congruence).
    destruct Hc as [Hc|Hc]; [left; exact (filter_in_out c a _ Hc Ns')|right; left; exact (filter_in_out c b _ Hc Ns')].
Qed.
