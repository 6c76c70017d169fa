(** * TrainAdSpec: what the numbers printed by train_script.py mean when adaptive_mode = True (see TrainSpec.v) *)
From Coq Require Import Reals.
From Verif Require Import Base Scalars Tensor Spec TorchMps Adaptive AdSpec TrainSpec P_AdExact.

Section TrainAdSpec.
  Variable svd : tensor R_ops -> tensor R_ops * tensor R_ops * tensor R_ops.
  Variables (pix : nat -> nat -> R) (lab : nat -> nat).
  Variables (N O D b : nat) (per : bool).
  (** the score of image [i] for class [o]: the contraction of the active cores; each pixel v enters as the vector (v, 1 - v) *)
  Definition ad_score (m : ad_mps) (i o : nat) : R :=
    core_output per D 2 (g_active (a_reg m)) (fun s k => if k =? 0 then pix i s else (1 - pix i s)%R) o.
  Definition ad_classifies (m : ad_mps) (i : nat) : Prop := first_max O (ad_score m i) (lab i).
  Definition ad_cross_entropy (m : ad_mps) (i : nat) : R :=
    (ln (fold_right Rplus 0 (map (fun o => exp (ad_score m i o)) (seq 0 O))) - ad_score m i (lab i))%R.
  Definition ad_mean_loss (m : ad_mps) (idx : list nat) : R :=
    (fold_right Rplus 0 (map (ad_cross_entropy m) idx) / INR (List.length idx))%R.
  (** an optimiser step: the parameters of both module lists get new values, nothing else changes *)
  Definition retrains (m m' : ad_mps) : Prop := exists l0 l1,
    Forall2 retrained (g_list0 (a_reg m)) l0 /\ Forall2 retrained (g_list1 (a_reg m)) l1 /\
    m' = mkAd (a_cfg m) (mkReg l0 l1 (g_offset (a_reg m)) (g_counter (a_reg m)) (g_threshold (a_reg m)) (g_cutoff (a_reg m))) (a_bonds m) (a_svs m).
  (** a call with the images [idx] takes the model from [m] to [m'] *)
  Definition called (m : ad_mps) (idx : list nat) (inputs : tensor R_cring) (m' : ad_mps) : Prop :=
    shows pix N b idx inputs /\ exists y g g', ad_forward svd m inputs g = ((Ok y, g'), Some m').
  Variable optst : Type.
  Variable opt : optst -> ad_mps -> tensor R_cring -> list nat -> optst * ad_mps.
  (** one pass over the training batches: call (which may flip the merge state first), losses and answers of
      the model after the call, update *)
  Inductive ad_pass : optst -> ad_mps -> list (list nat) -> optst -> ad_mps -> R -> nat -> Prop :=
  | ad_pass_end os m : ad_pass os m [] os m 0%R 0
  | ad_pass_batch os m idx bs inputs m1 os' m' os2 m2 c loss hits :
      called m idx inputs m1 -> count (ad_classifies m1) idx c -> opt os m1 inputs (map lab idx) = (os', m') ->
      ad_pass os' m' bs os2 m2 loss hits ->
      ad_pass os m (idx :: bs) os2 m2 (ad_mean_loss m1 idx + loss)%R (c + hits).
  (** one pass over the test batches *)
  Inductive ad_test_pass : ad_mps -> list (list nat) -> ad_mps -> nat -> Prop :=
  | ad_test_end m : ad_test_pass m [] m 0
  | ad_test_batch m idx bs inputs m1 m2 c hits :
      called m idx inputs m1 -> count (ad_classifies m1) idx c -> ad_test_pass m1 bs m2 hits ->
      ad_test_pass m (idx :: bs) m2 (c + hits).
  (** the models compute the same scores for all images *)
  Definition same_scores (m m' : ad_mps) : Prop :=
    forall v o, o < O -> core_output per D 2 (g_active (a_reg m)) v o = core_output per D 2 (g_active (a_reg m')) v o.
End TrainAdSpec.
