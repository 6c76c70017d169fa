(** * StateDict: model of saving and loading the parameters of a model, model.state_dict() and
    model.load_state_dict(d) of torch.nn.Module (strict=True), for the modules of torchmps.
    The tensors in the dictionary are those at the time of the call of state_dict (as after
    torch.save); in PyTorch they share memory with the model until they are written to a file. *)
From Coq Require Import Reals.
From Verif Require Import Base Scalars Tensor Utils TorchMps Adaptive MpsBase Embeddings ProbMps.

(** The name of an entry: the attribute names and list positions on the way to it;
    PyTorch writes "linear_region.module_list.0.tensor" for this key *)
Inductive part := PN (name : string) | PI (position : nat).
Definition key := list part.
Definition part_eqb (a b : part) : bool :=
  match a, b with PN x, PN y => String.eqb x y | PI x, PI y => x =? y | _, _ => false end.
Fixpoint key_eqb (a b : key) : bool :=
  match a, b with [] , [] => true | x :: a', y :: b' => part_eqb x y && key_eqb a' b' | _, _ => false end.

(** A parameter or buffer: number of the list of modules, position in it, and whether it is the
    bias.  Two entries of the dictionary can be the same parameter (module_list and module_list_0). *)
Definition pid := (nat * nat * bool)%type.
Definition pid_eqb (p q : pid) : bool :=
  let '(a, i, b) := p in let '(a', i', b') := q in (a =? a') && (i =? i') && Bool.eqb b b'.
(** the entries of an object, in the order in which PyTorch visits them *)
Definition layout := list (key * pid).

Section Dict.
  Variable A : Type.
  Notation T := (tensor A).
  Definition memory := pid -> T.
  Definition dict := list (key * T).
  (** torch.nn.Module.state_dict *)
  Definition state_dict (lay : layout) (st : memory) : dict := map (fun e => (fst e, st (snd e))) lay.
  Fixpoint lookup (k : key) (d : dict) : option T :=
    match d with [] => None | (k', t) :: d' => if key_eqb k k' then Some t else lookup k d' end.
  Definition write (st : memory) (p : pid) (t : T) : memory := fun q => if pid_eqb p q then t else st q.
  (** torch.nn.Module._load_from_state_dict: one entry.  An entry that is missing in the dictionary
      or has another shape there is not changed, and is remembered as an error. *)
  Definition load_entry (d : dict) (s : memory * bool) (e : key * pid) : memory * bool :=
    match lookup (fst e) d with
    | None => (fst s, true)
    | Some t => if list_eqb (shp t) (shp (fst s (snd e))) then (write (fst s) (snd e) t, snd s) else (fst s, true)
    end.
  Definition has_key (lay : layout) (k : key) : bool := existsb (fun e => key_eqb k (fst e)) lay.
  (** torch.nn.Module.load_state_dict with strict=True: all entries are visited; errors, and keys of
      the dictionary that do not belong to the object, are reported by one RuntimeError at the end *)
  Definition load (lay : layout) (st : memory) (d : dict) : memory * res unit :=
    let '(st', bad) := fold_left (load_entry d) lay (st, false) in
    (st', if bad || existsb (fun e => negb (has_key lay (fst e))) d then Err RuntimeError else Ok tt).
End Dict.
Arguments state_dict {A}. Arguments lookup {A}. Arguments write {A}. Arguments load_entry {A}. Arguments load {A}.

Section Modules.
  Variable K : sops.
  Notation T := (tensor K).
  Notation mod_ := (module K).
  (** nn.Parameter(None) is an empty tensor *)
  Definition no_data : T := tconst [0] s0.
  (** torchmps.py:1022-1028 (InputRegion), 1151, 1244, 1295, 1347: every module registers "tensor", an
      InputRegion also "bias_mat" *)
  Fixpoint mods_layout (pre : key) (c i : nat) (l : list mod_) : layout :=
    match l with
    | [] => []
    | m :: r => (pre ++ [PI i; PN "tensor"], (c, i, false)) ::
                match m with InputRegion _ _ _ => [(pre ++ [PI i; PN "bias_mat"], (c, i, true))] | _ => [] end ++
                mods_layout pre c (S i) r
    end.
  (** the values of the parameters of a list of modules *)
  Definition mods_read (l : list mod_) (i : nat) (bias : bool) : T :=
    match nth_error l i with
    | None => no_data
    | Some m => if bias then match m with InputRegion _ _ (Some b) => b | _ => no_data end else mod_tensor m
    end.
  Definition mod_write (m : mod_) (t b : T) : mod_ :=
    match m with
    | InputRegion _ ub (Some _) => InputRegion t ub (Some b)
    | InputRegion _ ub None => InputRegion t ub None
    | OutputSite _ => OutputSite t
    | InputSite _ => InputSite t
    | MergedInput _ => MergedInput t
    | MergedOutput _ lo => MergedOutput t lo
    end.
  (** the list with the values in the memory *)
  Fixpoint mods_write (st : memory K) (c i : nat) (l : list mod_) : list mod_ :=
    match l with [] => [] | m :: r => mod_write m (st (c, i, false)) (st (c, i, true)) :: mods_write st c (S i) r end.

  (** ** MPS without adaptive mode: torchmps.py:366-408, 428, 605: linear_region.module_list.
      Attributes that are neither parameters nor buffers nor modules (label_site, path, a feature map
      that is a plain function, ...) are not saved. *)
  Definition list_key (name : string) : key := [PN "linear_region"; PN name].
  Definition mps_layout (m : mps K) : layout := mods_layout (list_key "module_list") 0 0 (m_modules m).
  Definition mps_memory (m : mps K) : memory K := fun '(_, i, b) => mods_read (m_modules m) i b.
  Definition mps_state_dict (m : mps K) : dict K := state_dict (mps_layout m) (mps_memory m).
  Definition mps_load (m : mps K) (d : dict K) : mps K * res unit :=
    let '(st, r) := load (mps_layout m) (mps_memory m) d in
    (mkMps K (m_input m) (m_output m) (m_bond m) (m_feature m) (m_periodic m) (m_parallel m) (m_label m) (m_path m)
           (m_use_bias m) (mods_write st 0 0 (m_modules m)) (m_fmap m), r).

  (** ** TI_MPS: torchmps.py:44-66, 1452-1455, 1499-1505; bias_mat is an attribute None when use_bias is False *)
  Definition ti_layout (m : ti_mps K) : layout :=
    (([PN "core_tensor"], (0, 0, false)) ::
     match t_bias m with Some _ => [([PN "bias_mat"], (0, 0, true))] | None => [] end) ++
    [([PN "init_vector"; PN "vec"], (1, 0, false)); ([PN "terminal_mat"; PN "mat"], (2, 0, false))].
  Definition ti_memory (m : ti_mps K) : memory K := fun '(c, _, b) =>
    if b then match t_bias m with Some b => b | None => no_data end
    else if c =? 0 then t_core m else if c =? 1 then t_vec m else t_mat m.
  Definition ti_state_dict (m : ti_mps K) : dict K := state_dict (ti_layout m) (ti_memory m).
  Definition ti_load (m : ti_mps K) (d : dict K) : ti_mps K * res unit :=
    let '(st, r) := load (ti_layout m) (ti_memory m) d in
    (mkTi K (t_output m) (t_bond m) (t_feature m) (t_parallel m) (t_use_bias m) (t_fixed_bias m)
          (st (0, 0, false)) (st (1, 0, false)) (st (2, 0, false))
          (match t_bias m with Some _ => Some (st (0, 0, true)) | None => None end) (t_fmap m), r).
End Modules.

(** ** MPS with adaptive mode: torchmps.py:605, 717-723, 835-838: the list module_list is one of the lists
    module_list_0 and module_list_1, and its entries come first.  offset, input_counter, bond_list and
    sv_list are plain attributes, they are not saved. *)
Definition ad_layout (m : ad_mps) : layout :=
  let g := a_reg m in
  mods_layout R_cring (list_key "module_list") (g_offset g) 0 (g_active g) ++
  mods_layout R_cring (list_key "module_list_0") 0 0 (g_list0 g) ++
  mods_layout R_cring (list_key "module_list_1") 1 0 (g_list1 g).
Definition ad_memory (m : ad_mps) : memory R_cring := fun '(c, i, b) => mods_read R_cring (g_list (a_reg m) c) i b.
Definition ad_state_dict (m : ad_mps) : dict R_cring := state_dict (ad_layout m) (ad_memory m).
Definition ad_load (m : ad_mps) (d : dict R_cring) : ad_mps * res unit :=
  let '(st, r) := load (ad_layout m) (ad_memory m) d in
  let g := a_reg m in
  (mkAd (a_cfg m) (mkReg (mods_write R_cring st 0 0 (g_list0 g)) (mods_write R_cring st 1 0 (g_list1 g))
                         (g_offset g) (g_counter g) (g_threshold g) (g_cutoff g)) (a_bonds m) (a_svs m), r).

(** ** ProbMPS and ProbUnifMPS: prob_mps.py:124-131, 350-357.  An embedding whose function is a plain
    function, or a TrainableEmbedding (embeddings.py:92 hides the module in a lambda), has no entries:
    neither its weights nor its lamb_mat are saved. *)
Section Prob.
  Variable K : numfield.
  Definition p_layout (m : pmps K) : layout :=
    [([PN "core_tensors"], (0, 0, false)); ([PN "edge_vecs"], (1, 0, false))] ++
    match pm_bias _ m with Some _ => [([PN "bias_mat"], (0, 0, true))] | None => [] end.
  Definition p_memory (m : pmps K) : memory K := fun '(c, _, b) =>
    if b then match pm_bias _ m with Some b => b | None => tconst [0] s0 end
    else if c =? 0 then pm_core _ m else pm_edge _ m.
  Definition p_state_dict (m : pmps K) : dict K := state_dict (p_layout m) (p_memory m).
  Definition p_load (m : pmps K) (d : dict K) : pmps K * res unit :=
    let '(st, r) := load (p_layout m) (p_memory m) d in
    (mkP K (st (0, 0, false)) (st (1, 0, false)) (match pm_bias _ m with Some _ => Some (st (0, 0, true)) | None => None end) (pm_emb _ m), r).
End Prob.
