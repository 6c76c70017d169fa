(** * TrainScript: model of train_script.py (fixed bond dimensions, adaptive_mode=False).
    Not modelled: the printed text other than its three numbers, the timer, the MNIST files (the
    data set is an arbitrary function giving the flattened pixels and the label of every image),
    the random number generator (the order drawn by the sampler is a parameter), and the optimiser,
    which is an arbitrary function of its own state, the model, the inputs and the labels
    (train_script.py:34, 86-88: zero_grad, backward, step). *)
From Coq Require Import Reals.
From Verif Require Import Base Scalars Tensor TorchMps.

(** torch.utils.data.BatchSampler with drop_last=True (used by the DataLoader of train_script.py:46-50):
    collects indices until [b] of them are there; what is left over at the end is dropped *)
Fixpoint batch_loop (b : nat) (acc l : list nat) : list (list nat) :=
  match l with
  | [] => []
  | i :: l' => let acc' := acc ++ [i] in
               if List.length acc' =? b then acc' :: batch_loop b [] l' else batch_loop b acc' l'
  end.
(** train_script.py:46-50: a batch_size of 0 is rejected by the DataLoader *)
Definition loader (b : nat) (order : list nat) : res (list (list nat)) :=
  if b =? 0 then Err ValueError else Ok (batch_loop b [] order).

(** train_script.py:77, 102: torch.max(scores, 1) returns the first position of the maximum of each
    row ([best]: the largest value so far and its position; [k]: the position of the next entry) *)
Fixpoint max_loop (best : R * nat) (k : nat) (l : list R) : nat :=
  match l with
  | [] => snd best
  | v :: l' => max_loop (if Rlt_dec (fst best) v then (v, k) else best) (S k) l'
  end.
Definition argmax (l : list R) : res nat :=
  match l with [] => Err IndexError | v :: l' => Ok (max_loop (v, 0) 1 l') end.

Section Script.
  Notation T := (tensor R_cring).
  Notation model := (mps R_cring).
  (** the data set: flattened pixels and label of image number i *)
  Variables (pix : nat -> nat -> R) (lab : nat -> nat).
  (** input_dim (28 ** 2) and batch_size, train_script.py:19, 26 *)
  Variables (N b : nat).
  Variable optst : Type.
  Variable opt : optst -> model -> T -> list nat -> optst * model.

  (** train_script.py:72, 98: the images of a batch and inputs.view([batch_size, 28 ** 2]), which
      raises if the number of entries does not fit *)
  Definition images (idx : list nat) : res T :=
    if List.length idx * N =? b * N then Ok (mkT [b; N] (fun i => pix (nth (nth 0 i 0) idx 0) (nth 1 i 0)))
    else Err RuntimeError.
  Definition row (scores : T) (r : nat) : list R := map (fun o => get scores [r; o]) (seq 0 (nth 1 (shp scores) 0)).
  (** train_script.py:77 *)
  Definition preds (scores : T) : res (list nat) := rmap (fun r => argmax (row scores r)) (seq 0 (nth 0 (shp scores) 0)).
  (** train_script.py:80: CrossEntropyLoss, the mean of the negative log softmax of the label; a
      label that is no class raises IndexError *)
  Definition loss_fun (scores : T) (labels : list nat) : res R :=
    let* ls := rmap (fun r => let y := nth r labels 0 in
                              if y <? nth 1 (shp scores) 0 then
                                Ok (ln (fold_right Rplus 0%R (map exp (row scores r))) - get scores [r; y])%R
                              else Err IndexError) (seq 0 (nth 0 (shp scores) 0)) in
    Ok (fold_right Rplus 0%R ls / INR (List.length ls))%R.
  (** train_script.py:82, 103: torch.sum(preds == labels).item() / batch_size *)
  Definition accuracy (ps labels : list nat) : R :=
    (INR (fold_right plus 0 (map (fun r => if nth r ps 0 =? nth r labels 0 then 1 else 0) (seq 0 (List.length labels))))%nat / INR b)%R.

  (** train_script.py:71-88, one step of the training loop; [g] is the global batch size of
      contractables.py, see TorchMps *)
  Definition train_step (st : optst * model * option nat * R * R) (idx : list nat) : res (optst * model * option nat * R * R) :=
    let '(os, m, g, rl, ra) := st in
    let* inputs := images idx in
    let labels := map lab idx in
    let (r, g') := mps_forward R_cring m inputs g in
    let* scores := r in
    let* ps := preds scores in
    let* loss := loss_fun scores labels in
    let (os', m') := opt os m inputs labels in
    Ok (os', m', g', (rl + loss)%R, (ra + accuracy ps labels)%R).
  (** train_script.py:97-103, one step of the test loop *)
  Definition test_step (m : model) (st : option nat * R) (idx : list nat) : res (option nat * R) :=
    let (g, ra) := st in
    let* inputs := images idx in
    let labels := map lab idx in
    let (r, g') := mps_forward R_cring m inputs g in
    let* scores := r in
    let* ps := preds scores in
    Ok (g', (ra + accuracy ps labels)%R).
  (** running total / num_batches[name]: train_script.py:52-55, 91-92, 105 *)
  Definition average (total : R) (num : nat) : res R :=
    if num / b =? 0 then Err ZeroDivisionError else Ok (total / INR (num / b))%R.

  (** train_script.py:66-92 *)
  Definition train_epoch (ntrain : nat) (order : list nat) (os : optst) (m : model) (g : option nat)
    : res (optst * model * option nat * R * R) :=
    let* bs := loader b order in
    let* st := rfold train_step (os, m, g, 0%R, 0%R) bs in
    let '(os', m', g', rl, ra) := st in
    let* l := average rl ntrain in
    let* a := average ra ntrain in
    Ok (os', m', g', l, a).
  (** train_script.py:94-105 *)
  Definition test_epoch (ntest : nat) (order : list nat) (m : model) (g : option nat) : res (option nat * R) :=
    let* bs := loader b order in
    let* st := rfold (test_step m) (g, 0%R) bs in
    let* a := average (snd st) ntest in
    Ok (fst st, a).
  (** train_script.py:65-106: all epochs; [orders]: the orders drawn by the two samplers in each
      epoch.  Returns the three printed numbers of every epoch. *)
  Fixpoint epochs (ntrain ntest : nat) (orders : list (list nat * list nat)) (os : optst) (m : model) (g : option nat)
    : res (model * list (R * R * R)) :=
    match orders with
    | [] => Ok (m, [])
    | (tr, te) :: rest =>
        let* st := train_epoch ntrain tr os m g in
        let '(os', m', g', l, a) := st in
        let* st' := test_epoch ntest te m' g' in
        let* out := epochs ntrain ntest rest os' m' (fst st') in
        Ok (fst out, (l, a, snd st') :: snd out)
    end.
End Script.
