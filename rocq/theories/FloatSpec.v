(** * FloatSpec: MPS.forward and TI_MPS.forward in floating-point arithmetic.
    The arithmetic is any addition, multiplication and subtraction on the reals whose results have a relative
    error of at most u; round-to-nearest with 24 bits (torch.float32) or 53 bits (torch.float64) without overflow and
    underflow is one (P_Float.v).  The sums of einsum and bmm are taken from the first index to the last one;
    the order chosen by PyTorch is not modelled. *)
From Coq Require Import Reals.
From Verif Require Import Base Scalars Tensor Contractables TorchMps.

(** fop is exact followed by a rounding of relative error <= u *)
Definition rounded (u : R) (fop exact : R -> R -> R) : Prop := forall x y, (Rabs (fop x y - exact x y) <= u * Rabs (exact x y))%R.
(** the numbers of the model computed with the given operations *)
Definition fl_ops (fadd fmul fsub : R -> R -> R) : sops := mkOps R 0%R 1%R fadd fmul fsub.

(** f applied to every tensor of a model *)
Section Map.
  Context {K K' : sops} (f : tensor K -> tensor K').
  Definition map_mod (m : module K) : module K' :=
    match m with
    | InputRegion t ub b => InputRegion (f t) ub (option_map f b)
    | OutputSite t => OutputSite (f t)
    | InputSite t => InputSite (f t)
    | MergedInput t => MergedInput (f t)
    | MergedOutput t lo => MergedOutput (f t) lo
    end.
  Definition map_mps (ff : option (fmap K')) (path : mpath) (m : mps K) : mps K' :=
    mkMps K' (m_input m) (m_output m) (m_bond m) (m_feature m) (m_periodic m) (m_parallel m) (m_label m) path (m_use_bias m)
      (map map_mod (m_modules m)) ff.
  Definition map_ti (ff : option (fmap K')) (m : ti_mps K) : ti_mps K' :=
    mkTi K' (t_output m) (t_bond m) (t_feature m) (t_parallel m) (t_use_bias m) (t_fixed_bias m)
      (f (t_core m)) (f (t_vec m)) (f (t_mat m)) (option_map f (t_bias m)) ff.
End Map.
(** the same model, computed in floating-point arithmetic; feature maps are taken as they are *)
Definition same_numbers (fadd fmul fsub : R -> R -> R) (t : tensor R_ops) : tensor (fl_ops fadd fmul fsub) := t.
Definition on_fl (fadd fmul fsub : R -> R -> R) (m : mps R_ops) : mps (fl_ops fadd fmul fsub) :=
  map_mps (same_numbers fadd fmul fsub) (m_fmap m) (m_path m) m.
Definition ti_on_fl (fadd fmul fsub : R -> R -> R) (m : ti_mps R_ops) : ti_mps (fl_ops fadd fmul fsub) :=
  map_ti (same_numbers fadd fmul fsub) (t_fmap m) m.
Definition in_on_fl (fadd fmul fsub : R -> R -> R) (i : ti_input R_ops) : ti_input (fl_ops fadd fmul fsub) :=
  match i with TTensor t => TTensor (same_numbers fadd fmul fsub t) | TList l => TList (map (same_numbers fadd fmul fsub) l) end.

(** absolute values of all entries *)
Definition tabs (t : tensor R_ops) : tensor R_ops := tmap Rabs t.
(** what the sites of the model get: the input along the path, embedded *)
Definition site_input (m : mps R_ops) (x : tensor R_ops) : res (tensor R_ops) :=
  let* y := route R_ops (m_path m) x in mps_embed R_ops m y.
(** the magnitude: the forward pass of the model with |parameters| on |embedded inputs| *)
Definition magnitude (m : mps R_ops) (e : tensor R_ops) : M (tensor R_ops) :=
  mps_forward R_ops (map_mps tabs None PNone m) (tabs e).
Definition ti_magnitude (m : ti_mps R_ops) (e : tensor R_ops) : M (tensor R_ops) :=
  ti_forward R_ops (map_ti tabs None m) (TTensor (tabs e)).

(** the shapes of the tensors of a model: bond dimensions <= D, feature dimensions <= F *)
Definition sized (D F : nat) {K : sops} (m : module K) : Prop :=
  match m with
  | InputRegion t _ _ => exists n l r i, shp t = [n; l; r; i] /\ l <= D /\ r <= D /\ i <= F
  | OutputSite t => exists o l r, shp t = [o; l; r] /\ l <= D /\ r <= D
  | InputSite t => exists l r i, shp t = [l; r; i] /\ l <= D /\ r <= D /\ i <= F
  | MergedInput t => exists n l r i j, shp t = [n; l; r; i; j] /\ l <= D /\ r <= D /\ i <= F /\ j <= F
  | MergedOutput t _ => exists o l r i, shp t = [o; l; r; i] /\ l <= D /\ r <= D /\ i <= F
  end.
Definition ti_sized {K : sops} (m : ti_mps K) : Prop :=
  shp (t_core m) = [t_bond m; t_bond m; t_feature m] /\ shp (t_vec m) = [t_bond m] /\ (exists o, shp (t_mat m) = [t_bond m; o]) /\
  match t_bias m with None => True | Some b => shp b = [t_bond m; t_bond m] end.
(** the number of roundings on the longest way through a module (kx: roundings in its input) and through a model *)
Definition mod_roundings (D F kx : nat) {K : sops} (m : module K) : nat :=
  match m with
  | InputRegion t _ _ => Nat.max 1 (size 0 t) * (kx + F + D + 3)
  | OutputSite _ => D + 1
  | InputSite _ | MergedOutput _ _ => kx + F + D + 2
  | MergedInput t => Nat.max 1 (size 0 t) * (2 * kx + 2 * F + D + 3)
  end.
Definition roundings (D F kx : nat) {K : sops} (mods : list (module K)) : nat :=
  fold_right (fun m n => mod_roundings D F kx m + n) (D + 1) mods.
(** raw inputs of a model without a feature map are embedded as (x, 1-x), with one rounding *)
Definition input_roundings {K : sops} (m : mps K) (x : tensor K) : nat :=
  match m_fmap m with None => if ndim x =? 3 then 0 else 1 | Some _ => 0 end.
Definition ti_input_roundings {K : sops} (m : ti_mps K) (i : ti_input K) : nat :=
  match t_fmap m with
  | Some _ => 0
  | None => match i with TTensor x => if ndim x =? 2 then 1 else 0 | TList l => match l with [] => 0 | s :: _ => if ndim s =? 1 then 1 else 0 end end
  end.
