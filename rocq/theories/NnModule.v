(** * NnModule: the attribute registration of torch.nn.Module, and the constructors of
    /repo that rely on it.
    Modelled after the documentation and source of torch.nn.Module: assigning a
    Parameter or a Module registers it; assigning anything else than None to a name
    that is registered as a parameter or a submodule raises TypeError; everything else
    goes to the instance dictionary; [parameters()] lists the parameters of the module
    and, recursively, of its registered submodules, each parameter object once.
    Buffers, hooks and the naming of parameters are not modelled. *)
From Verif Require Import Base.

(** Parameters, and other Python objects (functions, numbers, tensors), are identified by
    a number. *)
Inductive pymod :=
| PyMod (params : list (string * option nat))     (* _parameters *)
        (mods : list (string * option pymod))     (* _modules *)
        (dict : list (string * option nat)).      (* __dict__: None or a plain object *)
Inductive value :=
| VNone
| VPlain (tok : nat)       (* any object that is neither a Parameter nor a Module *)
| VParam (p : nat)
| VModule (m : pymod).

Definition has {A} (n : string) (d : list (string * A)) : bool :=
  existsb (fun p => String.eqb n (fst p)) d.
Definition remove {A} (n : string) (d : list (string * A)) : list (string * A) :=
  filter (fun p => negb (String.eqb n (fst p))) d.
Fixpoint lookup {A} (n : string) (d : list (string * A)) : option A :=
  match d with
  | [] => None
  | (k, v) :: d' => if String.eqb n k then Some v else lookup n d'
  end.
(** dictionary assignment d[n] = v (insertion order kept) *)
Fixpoint put {A} (n : string) (v : A) (d : list (string * A)) : list (string * A) :=
  match d with
  | [] => [(n, v)]
  | (k, w) :: d' => if String.eqb n k then (k, v) :: d' else (k, w) :: put n v d'
  end.

(** nn.Module.__init__ *)
Definition new_module : pymod := PyMod [] [] [].
(** nn.Module.__setattr__ *)
Definition setattr (m : pymod) (n : string) (v : value) : res pymod :=
  match m with
  | PyMod ps ms d =>
      match v with
      | VParam p => Ok (PyMod (put n (Some p) ps) (remove n ms) (remove n d))
      | VModule s =>
          if has n ps then Err TypeError
          else Ok (PyMod ps (put n (Some s) ms) (remove n d))
      | VNone =>
          if has n ps then Ok (PyMod (put n None ps) ms d)
          else if has n ms then Ok (PyMod ps (put n None ms) d)
          else Ok (PyMod ps ms (put n None d))
      | VPlain t =>
          if has n ps then Err TypeError
          else if has n ms then Err TypeError
          else Ok (PyMod ps ms (put n (Some t) d))
      end
  end.
(** attribute lookup: the instance dictionary, then _parameters, then _modules *)
Definition getattr (m : pymod) (n : string) : res value :=
  match m with
  | PyMod ps ms d =>
      match lookup n d with
      | Some (Some t) => Ok (VPlain t)
      | Some None => Ok VNone
      | None => match lookup n ps with
                | Some (Some p) => Ok (VParam p)
                | Some None => Ok VNone
                | None => match lookup n ms with
                          | Some (Some s) => Ok (VModule s)
                          | Some None => Ok VNone
                          | None => Err AttributeError
                          end
                end
      end
  end.
(** nn.Module.parameters(), before the removal of duplicates *)
Definition own_params (ps : list (string * option nat)) : list nat :=
  flat_map (fun q => match snd q with Some p => [p] | None => [] end) ps.
Fixpoint all_params (m : pymod) : list nat :=
  match m with
  | PyMod ps ms _ =>
      own_params ps ++
      (fix go (l : list (string * option pymod)) : list nat :=
         match l with
         | [] => []
         | q :: l' => (match snd q with Some s => all_params s | None => [] end) ++ go l'
         end) ms
  end.
Fixpoint dedup (l : list nat) (seen : list nat) : list nat :=
  match l with
  | [] => []
  | x :: l' => if existsb (Nat.eqb x) seen then dedup l' seen else x :: dedup l' (x :: seen)
  end.
Definition parameters (m : pymod) : list nat := dedup (all_params m) [].

(** a sequence of attribute assignments *)
Fixpoint setattrs (m : pymod) (l : list (string * value)) : res pymod :=
  match l with
  | [] => Ok m
  | (n, v) :: l' => let* m' := setattr m n v in setattrs m' l'
  end.

(** embeddings.py:85-93 [TrainableEmbedding.__init__]: [lam] is the lambda of line 92 and
    [dom] the domain object; both are plain objects.  The parameters of emb_fun are
    reachable from [lam] only. *)
Definition trainable_embedding_obj (emb_fun : value) (dom lam : nat) : res pymod :=
  let m := new_module in
  let* _ := assert_ (match emb_fun with VModule _ => true | _ => false end) in
  setattrs m [("domain"%string, VPlain dom); ("emb_fun"%string, VPlain lam)].
(** embeddings.py:158-165 [FixedEmbedding.__init__] (the attributes set by make_lambda
    are plain) *)
Definition fixed_embedding_obj (emb_fun : value) (dom np dim lamb : nat) : res pymod :=
  let m := new_module in
  setattrs m [("domain"%string, VPlain dom); ("emb_fun"%string, emb_fun);
              ("num_points"%string, VPlain np); ("emb_dim"%string, VPlain dim);
              ("lamb_mat"%string, VPlain lamb)].
(** prob_mps.py:107-146 and :333-372 [ProbMPS.__init__] / [ProbUnifMPS.__init__]: the
    attribute assignments, with parameters [core], [edge] and optionally [bias], and the
    embedding object *)
Definition prob_mps_obj (core edge : nat) (bias : option nat) (cplx : nat) (emb : option pymod)
  : res pymod :=
  setattrs new_module
    ([("core_tensors"%string, VParam core); ("edge_vecs"%string, VParam edge)] ++
     (match bias with Some b => [("bias_mat"%string, VParam b)] | None => [] end) ++
     [("complex_params"%string, VPlain cplx); ("embedding"%string, VNone)] ++
     (match emb with Some e => [("embedding"%string, VModule e)] | None => [] end)).

(** The argument of register_feature_map: its value as an attribute, and the shape of its
    output on torch.tensor(0) (None when it is not a tensor). *)
Record fmap_arg := mkFM { fm_val : value; fm_shape : option (list nat) }.
(** torchmps.py:547-571 [MPS.register_feature_map] ([check = false]: a non-tensor output has no
    .shape) and torchmps.py:248-276 [TI_MPS.register_feature_map] ([check = true]: an assertion) *)
Definition register_feature_map (check : bool) (feature_dim : nat) (m : pymod) (a : option fmap_arg) : res pymod :=
  match a with
  | None => setattr m "feature_map" VNone
  | Some f =>
      match fm_shape f with
      | None => Err (if check then AssertionError else AttributeError)
      | Some s => if list_eqb s [feature_dim] then setattr m "feature_map" (fm_val f)
                  else Err ValueError
      end
  end.
(** torchmps.py:451 and :75: the constructors end with self.feature_map = None *)
Definition with_default_map (m : pymod) : res pymod := setattr m "feature_map" VNone.
