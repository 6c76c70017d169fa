(** * ProbInit: the constructors of torchmps/prob_mps.py and the attributes of the objects they build.
    The results of torch.randn and torch.rand_like are arguments.  Real parameters are represented
    as complex numbers without imaginary part. *)
From Coq Require Import Reals.
From Verif Require Import Base Scalars Tensor Utils2 MpsBase Embeddings ProbMps.

(** the random numbers drawn by a constructor: core (randn, phases), edge vectors (randn, phases),
    bias (phases) *)
Record draws := mkDraws { z_core : tensor R; u_core : tensor R; z_edge : tensor R; u_edge : tensor R; u_bias : tensor R }.

(** prob_mps.py:111-115, :338-342: the assertion and the call of the initialiser with its default noise *)
Definition init_core (method : string) (shape : list nat) (is_complex : bool) (z u : tensor R) : res (tensor cplx) :=
  let* _ := assert_ (String.eqb method "near_eye" || String.eqb method "normal") in
  if String.eqb method "near_eye" then near_eye_init shape is_complex (1 / 1000) z u
  else normal_init shape is_complex 1 z u.
(** prob_mps.py:116-122, :343-349: [rand_vec.conj()] of a real vector is [rand_vec] *)
Definition init_edge (bond_dim : nat) (is_complex : bool) (z u : tensor R) : res (tensor cplx) :=
  let rand_vec := mkT [bond_dim] (fun i => c_ofR (get z i / sqrt (INR bond_dim))) in
  let* e := stack0 [rand_vec; rand_vec] in
  Ok (if is_complex then phaseify e u else e).
(** prob_mps.py:126-131, :353-358 *)
Definition init_bias (bond_dim : nat) (use_bias is_complex : bool) (u : tensor R) : option (tensor cplx) :=
  if use_bias then
    let b := mkT [bond_dim; bond_dim] (fun _ => c_ofR 0) in
    Some (if is_complex then phaseify b u else b)
  else None.
(** prob_mps.py:98-146 [ProbMPS.__init__] ([seq_len = Some n]) and :325-372 [ProbUnifMPS.__init__]
    ([seq_len = None]) *)
Definition prob_init (seq_len : option Z) (input_dim bond_dim : Z) (complex_params use_bias : bool) (init_method : string)
    (embed_fun : embed_arg C_num) (dom : option domain) (r : draws) : res (pmps C_num) :=
  let* _ := assert_ (match seq_len with Some n => (0 <? n)%Z | None => true end && (0 <? input_dim)%Z && (0 <? bond_dim)%Z) in
  let d := Z.to_nat input_dim in
  let D := Z.to_nat bond_dim in
  let shape := match seq_len with Some n => [Z.to_nat n; d; D; D] | None => [d; D; D] end in
  let* core := init_core init_method shape complex_params (z_core r) (u_core r) in
  let* edge := init_edge D complex_params (z_edge r) (u_edge r) in
  let bias := init_bias D use_bias complex_params (u_bias r) in
  let* e := setup_embedding C_num d embed_fun dom in
  Ok (mkP C_num core edge bias e).

(** ** The properties of the objects *)
Section Attributes.
  Variable K : numfield.
  (** prob_mps.py:257-259; ProbUnifMPS inherits it *)
  Definition attr_seq_len (m : pmps K) : nat := nth 0 (shp (pm_core K m)) 0.
  (** prob_mps.py:261-263 and :462-464 *)
  Definition attr_input_dim (uniform : bool) (m : pmps K) : nat := nth (if uniform then 0 else 1) (shp (pm_core K m)) 0.
  (** prob_mps.py:265-267 and :466-468 *)
  Definition attr_bond_dim (uniform : bool) (m : pmps K) : nat := nth (if uniform then 1 else 2) (shp (pm_core K m)) 0.
  (** prob_mps.py:269-271 and :470-472 *)
  Definition attr_use_bias (m : pmps K) : bool := match pm_bias K m with Some _ => true | None => false end.
End Attributes.
