(** * TrainAd: model of train_script.py with adaptive_mode = True (line 13 changed), see TrainScript.v for
    what is not modelled.  The only difference is the model that is called: an adaptive MPS, whose state
    (active module list, counter, bond_list, sv_list) is changed by every call of forward, in the training
    loop and in the test loop.  [svd] stands for torch.svd. *)
From Coq Require Import Reals.
From Verif Require Import Base Scalars Tensor TorchMps Adaptive TrainScript.

Section Script.
  Notation T := (tensor R_cring).
  Variable svd : tensor R_ops -> tensor R_ops * tensor R_ops * tensor R_ops.
  Variables (pix : nat -> nat -> R) (lab : nat -> nat).
  Variables (N b : nat).
  Variable optst : Type.
  Variable opt : optst -> ad_mps -> T -> list nat -> optst * ad_mps.

  (** mps(inputs): train_script.py:76, 101; the state after a call that raised is not needed, the script ends *)
  Definition call (m : ad_mps) (inputs : T) (g : option nat) : res (T * option nat * ad_mps) :=
    match ad_forward svd m inputs g with
    | ((Ok y, g'), Some m') => Ok (y, g', m')
    | ((Err e, _), _) => Err e
    | ((Ok _, _), None) => Err AssertionError     (* does not happen *)
    end.
  (** train_script.py:71-88 *)
  Definition ad_train_step (st : optst * ad_mps * option nat * R * R) (idx : list nat) : res (optst * ad_mps * option nat * R * R) :=
    let '(os, m, g, rl, ra) := st in
    let* inputs := images pix N b idx in
    let labels := map lab idx in
    let* r := call m inputs g in
    let '(scores, g', m1) := r in
    let* ps := preds scores in
    let* loss := loss_fun scores labels in
    let (os', m2) := opt os m1 inputs labels in
    Ok (os', m2, g', (rl + loss)%R, (ra + accuracy b ps labels)%R).
  (** train_script.py:97-103 *)
  Definition ad_test_step (st : ad_mps * option nat * R) (idx : list nat) : res (ad_mps * option nat * R) :=
    let '(m, g, ra) := st in
    let* inputs := images pix N b idx in
    let labels := map lab idx in
    let* r := call m inputs g in
    let '(scores, g', m1) := r in
    let* ps := preds scores in
    Ok (m1, g', (ra + accuracy b ps labels)%R).
  (** train_script.py:66-92 *)
  Definition ad_train_epoch (ntrain : nat) (order : list nat) (os : optst) (m : ad_mps) (g : option nat)
    : res (optst * ad_mps * option nat * R * R) :=
    let* bs := loader b order in
    let* st := rfold ad_train_step (os, m, g, 0%R, 0%R) bs in
    let '(os', m', g', rl, ra) := st in
    let* l := average b rl ntrain in
    let* a := average b ra ntrain in
    Ok (os', m', g', l, a).
  (** train_script.py:94-105 *)
  Definition ad_test_epoch (ntest : nat) (order : list nat) (m : ad_mps) (g : option nat) : res (ad_mps * option nat * R) :=
    let* bs := loader b order in
    let* st := rfold ad_test_step (m, g, 0%R) bs in
    let '(m', g', ra) := st in
    let* a := average b ra ntest in
    Ok (m', g', a).
  (** train_script.py:65-106 *)
  Fixpoint ad_epochs (ntrain ntest : nat) (orders : list (list nat * list nat)) (os : optst) (m : ad_mps) (g : option nat)
    : res (ad_mps * list (R * R * R)) :=
    match orders with
    | [] => Ok (m, [])
    | (tr, te) :: rest =>
        let* st := ad_train_epoch ntrain tr os m g in
        let '(os', m', g', l, a) := st in
        let* st' := ad_test_epoch ntest te m' g' in
        let '(m'', g'', t) := st' in
        let* out := ad_epochs ntrain ntest rest os' m'' g'' in
        Ok (fst out, (l, a, t) :: snd out)
    end.
End Script.
