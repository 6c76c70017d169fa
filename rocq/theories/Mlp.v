(** * Mlp: model of the multilayer perceptron built by embeddings.py [init_mlp_embed] *)
From Coq Require Import Reals.
From Verif Require Import Base Scalars Tensor Utils2 MpsBase Embeddings.

(** torch.nn.Sigmoid (embeddings.py:281); an integer tensor is promoted *)
Definition sigmoid (x : R) : R := (/ (1 + exp (- x)))%R.
Definition sigmoid_forward (x : tin R) : tin R :=
  match x with TFloat t => TFloat (tmap sigmoid t) | TLong t => TFloat (tmap (fun z => sigmoid (IZR z)) t) end.
(** torch.nn.Linear (embeddings.py:280): x W^T + b on the last axis.  Integer tensors are rejected by
    the dtype check of the matrix product (the weights are float). *)
Definition linear_forward (W b : tensor R) (x : tin R) : res (tin R) :=
  match x with
  | TLong _ => Err RuntimeError
  | TFloat t =>
      match shp W with
      | [o; i] =>
          if (0 <? ndim t) && (last (shp t) 0 =? i) then
            Ok (TFloat (mkT (droplast 1 (shp t) ++ [o]) (fun z =>
              (bsum (S := R_ops) i (fun j => get t (droplast 1 z ++ [j]) * get W [last z 0%nat; j]) + get b [last z 0%nat])%R)))
          else Err RuntimeError
      | _ => Err RuntimeError
      end
  end.
(** torch.nn.Sequential (embeddings.py:282): [w k] are weight and bias of module number k (if it is linear) *)
Fixpoint seq_forward (ls : list layer) (w : nat -> tensor R * tensor R) (k : nat) (x : tin R) : res (tin R) :=
  match ls with
  | [] => Ok x
  | Linear _ _ :: r => let* y := linear_forward (fst (w k)) (snd (w k)) x in seq_forward r w (S k) y
  | Sigmoid :: r => seq_forward r w (S k) (sigmoid_forward x)
  end.
(** x[..., None] *)
Definition add_axis {A} (t : tensor A) : tensor A := mkT (shp t ++ [1]) (fun z => get t (droplast 1 z)).
(** embeddings.py:92: the composite x |-> emb_fun(x[..., None]) *)
Definition mlp_forward (ls : list layer) (w : nat -> tensor R * tensor R) (x : tin R) : res (tin R) :=
  seq_forward ls w 0 (match x with TFloat t => TFloat (add_axis t) | TLong t => TLong (add_axis t) end).
(** the same as an embedding function in the sense of Embeddings.v, whose type has no room for exceptions
    (used on the tensors on which mlp_forward does not raise) *)
Definition mlp_fun (ls : list layer) (w : nat -> tensor R * tensor R) : efun R_num := fun x =>
  match mlp_forward ls w x with Ok (TFloat y) => y | _ => mkT (A := R_num) [] (fun _ => 0%R) end.
(** embeddings.py:260-287 [init_mlp_embed], with the values [w] that the parameters have (initialised at random, then
    trained) *)
Definition init_mlp_embed (output_dim num_layers : Z) (hd : hidden) (dom : option domain) (w : nat -> tensor R * tensor R)
  : res (embedding R_num) :=
  let* ls := init_mlp_layers output_dim num_layers hd in
  Ok (trainable_embedding R_num (mlp_fun ls w) (init_mlp_domain dom)).
