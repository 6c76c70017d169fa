(** * TmSpec: what the MPS and TI_MPS models should compute.
    A tensor train: a list of square matrices, one for every site (a matrix that depends
    linearly on the feature vector, plus a bias), with an output core in between. *)
From Verif Require Import Base Scalars Tensor Spec TorchMps.

Section TmSpec.
  Variable K : cring.
  (** M(v)[l,r] = sum_i v_i A[l,r,i] + B[l,r] *)
  Definition site_matrix (F : nat) (A : nat -> nat -> nat -> K) (B : mat K) (v : vec K) : mat K :=
    fun l r => sadd (bsum F (fun i => smul (v i) (A l r i))) (B l r).
  Definition no_bias : mat K := fun _ _ => s0.

  (** the numbers that define the function computed by an MPS: A_s[l,r,i], B_s[l,r] and O_o[l,r] *)
  Record weights := mkW {
    w_core : nat -> nat -> nat -> nat -> K;
    w_bias : nat -> mat K;
    w_out : nat -> mat K }.
  (** the ordered factors: sites before the label, the output matrix, sites after the label;
      [x s] is the feature vector of pixel s *)
  Definition factors (N label D F : nat) (w : weights) (x : nat -> vec K) (o : nat) : list (nat * mat K) :=
    let site s := (D, site_matrix F (w_core w s) (w_bias w s) (x s)) in
    map site (seq 0 label) ++ [(D, w_out w o)] ++ map site (seq label (N - label)).
  Definition train_value N label D F w x o : K := chain (factors N label D F w x o) 0 0.
  Definition ring_value N label D F w x o : K := mtrace D (chain (factors N label D F w x o)).

  (** ** the weights stored in an MPS object *)
  Definition no_tensor : tensor K := tconst [] s0.
  Definition first_mod (m : mps K) : module K := nth 0 (m_modules m) (OutputSite no_tensor).
  Definition out_mod (m : mps K) : module K := nth (if 0 <? m_label m then 1 else 0) (m_modules m) (OutputSite no_tensor).
  Definition last_mod (m : mps K) : module K := last (m_modules m) (OutputSite no_tensor).
  Definition mod_bias (m : module K) : mat K :=
    match m with
    | InputRegion _ true (Some b) => fun l r => get b [0; l; r]
    | _ => no_bias
    end.
  (** site s belongs to the first region when s < label_site, to the last one otherwise *)
  Definition weights_of (m : mps K) : weights := mkW
    (fun s l r i => if s <? m_label m then get (mod_tensor (first_mod m)) [s; l; r; i]
                    else get (mod_tensor (last_mod m)) [s - m_label m; l; r; i])
    (fun s => if s <? m_label m then mod_bias (first_mod m) else mod_bias (last_mod m))
    (fun o l r => get (mod_tensor (out_mod m)) [o; l; r]).

  (** ** training: the parameters get new values of the same shapes, nothing else changes *)
  Definition same_shape (a b : tensor K) : Prop := shp a = shp b.
  Inductive mod_trained : module K -> module K -> Prop :=
  | MT_region t t' ub b b' : same_shape t t' -> same_shape b b' -> mod_trained (InputRegion t ub (Some b)) (InputRegion t' ub (Some b'))
  | MT_region_nobias t t' ub : same_shape t t' -> mod_trained (InputRegion t ub None) (InputRegion t' ub None)
  | MT_out t t' : same_shape t t' -> mod_trained (OutputSite t) (OutputSite t').
  Definition trained (m m' : mps K) : Prop :=
    Forall2 mod_trained (m_modules m) (m_modules m') /\
    m' = mkMps K (m_input m) (m_output m) (m_bond m) (m_feature m) (m_periodic m) (m_parallel m)
           (m_label m) (m_path m) (m_use_bias m) (m_modules m') (m_fmap m').
  (** ** and for TI_MPS *)
  Definition ti_trained (m m' : ti_mps K) : Prop :=
    same_shape (t_core m) (t_core m') /\ same_shape (t_vec m) (t_vec m') /\ same_shape (t_mat m) (t_mat m') /\
    match t_bias m, t_bias m' with
    | None, None => True
    | Some b, Some b' => same_shape b b' /\ (t_fixed_bias m = true -> b = b')
    | _, _ => False
    end /\
    m' = mkTi K (t_output m) (t_bond m) (t_feature m) (t_parallel m) (t_use_bias m) (t_fixed_bias m)
           (t_core m') (t_vec m') (t_mat m') (t_bias m') (t_fmap m').
  Definition ti_bias_mat (m : ti_mps K) : mat K :=
    if t_use_bias m then match t_bias m with Some b => fun l r => get b [l; r] | None => no_bias end else no_bias.
  (** init_vec . prod_s M(x_s) . terminal_mat, for a sequence of n feature vectors *)
  Definition ti_value (m : ti_mps K) (n : nat) (x : nat -> vec K) (o : nat) : K :=
    sandwich (t_bond m) (t_bond m) (fun l => get (t_vec m) [l])
      (chain (map (fun s => (t_bond m, site_matrix (t_feature m) (fun l r i => get (t_core m) [l; r; i]) (ti_bias_mat m) (x s))) (seq 0 n)))
      (fun r => get (t_mat m) [r; o]).
End TmSpec.
Arguments site_matrix {K}. Arguments no_bias {K}. Arguments mkW {K}. Arguments w_core {K}. Arguments w_bias {K}. Arguments w_out {K}.
Arguments factors {K}. Arguments train_value {K}. Arguments ring_value {K}. Arguments weights_of {K}. Arguments trained {K}. Arguments mod_trained {K}.
Arguments ti_trained {K}. Arguments ti_bias_mat {K}. Arguments ti_value {K}. Arguments same_shape {K}. Arguments mod_bias {K}.
Arguments first_mod {K}. Arguments last_mod {K}. Arguments out_mod {K}.
