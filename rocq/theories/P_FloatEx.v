(** * P_FloatEx: C95 for round-to-nearest with p bits (torch.float32: p = 24, torch.float64: p = 53), with Flocq's
    definition of rounding (unbounded exponents: no overflow, no underflow), and a model that meets the hypotheses *)
From Coq Require Import Reals Lra ZArith.
From Flocq Require Import Core Relative.
From Verif Require Import Base Scalars Tensor Spec LinAlg Contractables Utils TorchMps TmSpec TmProofs TmFinal P_Mps FloatSpec Float P_Float.

(** ties to even *)
Definition nearest (p : Z) (x : R) : R := round radix2 (FLX_exp p) (Znearest (fun z => negb (Z.even z))) x.
Definition unit_roundoff (p : Z) : R := bpow radix2 (- p).
Lemma nearest_error p x : (0 < p)%Z -> (Rabs (nearest p x - x) <= unit_roundoff p * Rabs x)%R.
Proof.
  intros Hp. pose proof (relative_error_N_FLX radix2 p Hp (fun z => negb (Z.even z)) x) as H. unfold nearest, unit_roundoff.
  replace (bpow radix2 (- p)) with (/ 2 * bpow radix2 (- p + 1))%R; [exact H|]. rewrite bpow_plus. cbn [bpow]. change (IZR (Zpower_pos radix2 1)) with 2%R. lra.
Qed.
Definition nadd p x y := nearest p (x + y). Definition nmul p x y := nearest p (x * y). Definition nsub p x y := nearest p (x - y).
Lemma nearest_rounded p : (0 < p)%Z ->
  (0 <= unit_roundoff p)%R /\ rounded (unit_roundoff p) (nadd p) Rplus /\ rounded (unit_roundoff p) (nmul p) Rmult /\ rounded (unit_roundoff p) (nsub p) Rminus.
Proof.
  intros Hp. split; [apply bpow_ge_0|]. repeat split; intros x y; apply nearest_error, Hp.
Qed.

(** torch.float32 and torch.float64: a relative error of about (number of roundings) * 2^-p with respect to the magnitude *)
Theorem C95_nearest p N O D F per par label path std ub rnd m0 m x e B g : (0 < p)%Z ->
  mps_init R_cring N O D F per par label path std ub rnd = Ok m0 -> trained m0 m ->
  good_label N (m_label m) -> (if per then 1 <= N else 0 < D) ->
  site_input m x = Ok e -> shp e = [B; N; F] -> 0 < m_label m \/ g = Some B ->
  let k := N * (input_roundings m x + F + D + 3) + 2 * (D + 1) in
  (INR k * unit_roundoff p < 1)%R ->
  exists out, mps_forward (fl_ops (nadd p) (nmul p) (nsub p)) (on_fl (nadd p) (nmul p) (nsub p) m) x g = (Ok out, Some B) /\ shp out = [B; O] /\
    forall b o, b < B -> o < O ->
      (Rabs (get out [b; o] - contraction per N (m_label m) D F (weights_of m) (fun s i => get e [b; s; i]) o) <=
       INR k * unit_roundoff p / (1 - INR k * unit_roundoff p) *
       contraction per N (m_label m) D F (abs_weights (weights_of m)) (fun s i => Rabs (get e [b; s; i])) o)%R.
Proof.
  intros Hp Hi Ht Hl Hc He Hs Hg k Hk. destruct (nearest_rounded p Hp) as (U & A & M & S).
  destruct (C95_value _ _ _ _ U A M S N O D F per par label path std ub rnd m0 m x e B g Hi Ht Hl Hc He Hs Hg) as (out & E1 & E2 & E3).
  exists out. split; [exact E1|]. split; [exact E2|]. intros b o Hb Ho. eapply Rle_trans; [apply E3; assumption|]. fold k.
  apply Rmult_le_compat_r; [|apply gamma_bound; [exact U|exact Hk]].
  (* magnitudes are not negative *)
  assert (Rx : forall op, rounded 1 op op) by (intros op q r; replace (op q r - op q r)%R with 0%R by ring; rewrite Rabs_R0, Rmult_1_l; apply Rabs_pos).
  destruct (C95_value 1 Rplus Rmult Rminus Rle_0_1 (Rx _) (Rx _) (Rx _) N O D F per par label path std ub rnd m0 m x e B g Hi Ht Hl Hc He Hs Hg) as (out0 & _ & _ & F3).
  specialize (F3 b o Hb Ho). set (A0 := contraction per N (m_label m) D F (abs_weights (weights_of m)) (fun s i => Rabs (get e [b; s; i])) o) in *.
  assert (K2 : (2 <= (1 + 1) ^ (N * (input_roundings m x + F + D + 3) + 2 * (D + 1))%nat)%R).
  { replace (N * (input_roundings m x + F + D + 3) + 2 * (D + 1)) with (Datatypes.S (N * (input_roundings m x + F + D + 3) + 2 * D + 1)) by lia. cbn [pow].
    assert (1 <= (1 + 1) ^ (N * (input_roundings m x + F + D + 3) + 2 * D + 1)%nat)%R by (apply pow_R1_Rle; lra). lra. }
  destruct (Rle_dec 0 A0) as [|Neg]; [assumption|]. exfalso. assert (A1 : (A0 < 0)%R) by lra.
  match type of F3 with (_ <= (?p - 1) * _)%R => set (c := p) in * end. pose proof (Rle_trans _ _ _ (Rabs_pos _) F3) as Q.
  assert ((c - 1) * A0 < 0)%R; [|lra]. apply Ropp_lt_cancel. rewrite Ropp_0, Ropp_mult_distr_r. apply Rmult_lt_0_compat; lra.
Qed.

(** a model with four sites, bond dimension 2, features (x, 1-x), 24 bits *)
Definition fx_rnd : nat -> list nat -> R := fun k i => (/ (3 + INR (k + nth 0 i 0 + 2 * nth 1 i 0 + nth 2 i 0)%nat))%R.
Definition fx_x : tensor R := mkT [1; 4] (fun i => (/ (7 + INR (nth 1 i 0%nat)))%R).
Example C95_case : exists m0, mps_init R_cring 4 2 2 2 false true None PNone (1 / 2)%R true fx_rnd = Ok m0 /\ trained m0 m0 /\
  good_label 4 (m_label m0) /\ site_input m0 fx_x = Ok (embed_default R_ops fx_x) /\ shp (embed_default R_ops fx_x) = [1; 4; 2] /\ 0 < m_label m0 /\
  (let k := 4 * (input_roundings m0 fx_x + 2 + 2 + 3) + 2 * (2 + 1) in (INR k * unit_roundoff 24 < 1)%R).
Proof.
  destruct (C34_constructor R_cring 4 2 2 2 false true None PNone (1 / 2)%R true fx_rnd) as (m0 & E & T & L); [exact Logic.I|left; left; reflexivity|].
  exists m0. split; [exact E|]. split; [exact T|]. rewrite L. split; [split; cbn; lia|].
  pose proof (init_built _ _ _ _ _ _ _ _ _ _ _ _ _ _ E T) as Hb.
  assert (Fm : m_fmap m0 = None).
  { clear -E. unfold mps_init in E. destruct (label_of 4 None); [|discriminate E]. cbn [rbind] in E. destruct (build_modules _ _ _ _ _ _ _ _ _ _); [|discriminate E]. cbn [rbind] in E.
    destruct (assert_ _); [|discriminate E]. cbn [rbind] in E. destruct (check_path _ _); [|discriminate E]. injection E as <-. reflexivity. }
  assert (Pm : @m_path R_ops m0 = PNone) by exact (b_path _ _ _ _ _ _ _ _ _ _ _ Hb). assert (Im : @m_input R_ops m0 = 4) by exact (b_in _ _ _ _ _ _ _ _ _ _ _ Hb).
  assert (Fe : @m_feature R_ops m0 = 2) by exact (b_feat _ _ _ _ _ _ _ _ _ _ _ Hb). assert (Fm' : @m_fmap R_ops m0 = None) by exact Fm.
  split; [unfold site_input; rewrite Pm; cbn [route path_true rbind]; unfold mps_embed; rewrite Im, Fe, Fm'; reflexivity|].
  split; [reflexivity|]. split; [cbn; lia|]. unfold input_roundings. rewrite Fm. cbn [fx_x ndim shp List.length Nat.eqb Nat.mul Nat.add].
  unfold unit_roundoff. replace (bpow radix2 (- (24))) with (/ 16777216)%R by reflexivity. cbn [INR]. lra.
Qed.
Print Assumptions C95_forward.
Print Assumptions C95_ti.
Print Assumptions C95_value.
Print Assumptions C95_nearest.
