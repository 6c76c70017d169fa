(** * TorchMps: model of torchmps/torchmps.py, without the adaptive mode (Adaptive.v).
    Devices (line 624-625) and autograd are not modelled.  Whether a tensor is registered as a
    parameter or as a buffer (ephemeral, fixed_bias, fixed_ends) does not change a forward pass
    and is not modelled. *)
From Verif Require Import Base Scalars Tensor Contractables Utils.

Section TorchMps.
  Variable K : sops.
  Notation T := (tensor K).

  (** ** The modules that a LinearRegion is made of *)
  (** torchmps.py:990, 1287, 1236, 1132, 1327.  [bias] is self.bias_mat of an InputRegion, with
      three axes; None when use_bias is False. *)
  Inductive module :=
  | InputRegion (t : T) (use_bias : bool) (bias : option T)
  | OutputSite (t : T)
  | InputSite (t : T)
  | MergedInput (t : T)
  | MergedOutput (t : T) (left_output : bool).
  Definition mod_tensor (m : module) : T :=
    match m with InputRegion t _ _ | OutputSite t | InputSite t | MergedInput t | MergedOutput t _ => t end.

  (** tensor.size(k) for an axis that exists *)
  Definition size (k : nat) (t : T) : nat := nth k (shp t) 0.
  (** torchmps.py:995-1031 [InputRegion.__init__] *)
  Definition input_region (t : T) (use_bias : bool) (bias_mat : option T) : res module :=
    let* _ := assert_ (ndim t =? 4) in
    let* _ := assert_ (size 1 t =? size 2 t) in
    if use_bias then
      let b := match bias_mat with None => unsq_front 1 (eye2 K (size 1 t) (size 1 t)) | Some b => b end in
      let* _ := assert_ ((ndim b =? 2) || (ndim b =? 3)) in
      Ok (InputRegion t true (Some (if ndim b =? 2 then unsq_front 1 b else b)))
    else Ok (InputRegion t false bias_mat).

  (** torchmps.py:1128, 1323, 1283, 1229, 1426: len(module), the number of inputs it takes *)
  Definition mod_len (m : module) : nat :=
    match m with
    | InputRegion t _ _ => size 0 t
    | OutputSite _ => 0
    | InputSite _ => 1
    | MergedInput t => 2 * size 0 t
    | MergedOutput _ _ => 1
    end.
  (** torchmps.py:1125, 1320, 1280, 1226, 1423 *)
  Definition mod_core_len (m : module) : nat :=
    match m with
    | InputRegion _ _ _ | MergedInput _ => mod_len m
    | OutputSite _ | InputSite _ => 1
    | MergedOutput _ _ => 2
    end.

  (** torchmps.py:1033-1055, 1297-1301, 1246-1261, 1153-1176, 1350-1365: the forward methods *)
  Definition mod_forward (m : module) (x : T) : M (atom K) :=
    match m with
    | InputRegion t use_bias bias =>
        let! _ := lift (assert_ (ndim x =? 3)) in
        let! _ := lift (assert_ (size 1 x =? mod_len m)) in
        let! _ := lift (assert_ (size 2 x =? size 3 t)) in
        let! mats := lift (einsum "slri,bsi->bslr" [t; x]) in
        let! mats' := lift (if use_bias then
                              match bias with
                              | Some b => let* e := expand (unsq_front 1 b) (shp mats) in tzip sadd mats e
                              | None => Err AttributeError
                              end
                            else Ok mats) in
        mat_region K mats'
    | OutputSite t => output_core K t
    | InputSite t =>
        let! _ := lift (assert_ (ndim x =? 2)) in
        let! _ := lift (assert_ (size 1 x =? size 2 t)) in
        let! m := lift (einsum "lri,bi->blr" [t; x]) in
        single_mat K m
    | MergedInput t =>
        let! _ := lift (assert_ (ndim x =? 3)) in
        let! _ := lift (assert_ (size 1 x =? mod_len m)) in
        let! _ := lift (assert_ (size 2 x =? size 3 t)) in
        let! _ := lift (assert_ (size 1 x mod 2 =? 0)) in
        (* input_data[:, 0::2], input_data[:, 1::2] of an even number of entries *)
        let even := sliceE 1 (size 1 x / 2) (fun p => 2 * p) x in
        let odd := sliceE 1 (size 1 x / 2) (fun p => 2 * p + 1) x in
        let! u := lift (einsum "slrij,bsj->bslri" [t; odd]) in
        let! mats := lift (einsum "bslri,bsi->bslr" [u; even]) in
        mat_region K mats
    | MergedOutput t _ =>
        let! _ := lift (assert_ (ndim x =? 2)) in
        let! _ := lift (assert_ (size 1 x =? size 3 t)) in
        let! u := lift (einsum "olri,bi->bolr" [t; x]) in
        output_core K u
    end.

  (** ** LinearRegion *)
  (** torchmps.py:696-700, 690-694 *)
  Definition region_len (mods : list module) : nat := fold_right (fun m n => mod_len m + n) 0 mods.
  Definition region_core_len (mods : list module) : nat := fold_right (fun m n => mod_core_len m + n) 0 mods.
  (** torchmps.py:630-640: the loop; the input has three axes and as many entries as needed *)
  Fixpoint mods_forward (mods : list module) (ind : nat) (x : T) : M (list (atom K)) :=
    match mods with
    | [] => ret []
    | m :: mods' =>
        let n := mod_len m in
        let mod_input := if n =? 1 then selE 1 x ind else sliceE 1 n (fun p => ind + p) x in
        let! a := mod_forward m mod_input in
        let! l := mods_forward mods' (ind + n) x in
        ret (a :: l)
    end.
  (** torchmps.py:644-662: the trace over the bonds l and r *)
  Definition trace_lr (c : contr K) : res T :=
    match c with
    | Atom a =>
        let bs := chars (a_bond a) in
        let* _ := assert_ (inb "l"%char bs && inb "r"%char bs) in
        let in_str := map (fun c => if is_lr c then "l"%char else c) bs in
        let out_str := filter (fun c => negb (is_lr c)) bs in
        einsum (str (in_str ++ chars "->" ++ out_str)) [a_ten a]
    | _ => Err AttributeError
    end.
  (** torchmps.py:668-680: item.tensor.size(item.bond_str.index(c)); a vector of that length
      with first entry 1 *)
  Definition end_vec (a : atom K) (c : ascii) : res T :=
    match index_of c (chars (a_bond a)) with
    | None => Err ValueError
    | Some k => let d := size k (a_ten a) in
                if d =? 0 then Err IndexError else Ok (mkT [d] (fun i => if nth 0 i 0 =? 0 then s1 else s0))
    end.
  (** torchmps.py:609-688 [LinearRegion.forward] *)
  Definition region_forward (mods : list module) (periodic_bc parallel_eval : bool) (x : T) : M T :=
    let! _ := lift (assert_ (ndim x =? 3)) in
    let! _ := lift (assert_ (size 1 x =? region_len mods)) in
    let! l := mods_forward mods 0 x in
    if periodic_bc then
      let! c := lift (contractable_list K (map Atom l)) in
      let! z := reduce K true c in
      lift (trace_lr z)
    else
      match l, rev l with
      | a0 :: _, a1 :: _ =>
          let! v0 := lift (end_vec a0 "l"%char) in
          let! v1 := lift (end_vec a1 "r"%char) in
          let! e0 := edge_vec K v0 true in
          let! e1 := edge_vec K v1 false in
          let! c := lift (contractable_list K (map Atom (e0 :: l ++ [e1]))) in
          let! z := reduce K parallel_eval c in
          match z with Atom a => ret (a_ten a) | _ => raise AttributeError end
      | _, _ => raise IndexError
      end.

  (** ** MPS *)
  (** the [path] argument: absent, a list of integers, or a tensor with one axis *)
  Inductive mpath := PNone | PList (l : list Z) | PTensor (l : list Z).
  (** bool(path): None and [] are false; a tensor with more than one entry raises RuntimeError *)
  Definition path_true (p : mpath) : res bool :=
    match p with
    | PNone => Ok false
    | PList l => Ok (negb (List.length l =? 0))
    | PTensor [] => Ok false
    | PTensor [z] => Ok (negb (Z.eqb z 0))
    | PTensor _ => Err RuntimeError
    end.
  Definition path_list (p : mpath) : list Z := match p with PNone => [] | PList l | PTensor l => l end.
  (** a feature map: takes a 0-d tensor (its value) and returns a tensor, or raises *)
  Definition fmap := K -> res T.

  Record mps := mkMps {
    m_input : nat; m_output : nat; m_bond : nat; m_feature : nat;
    m_periodic : bool; m_parallel : bool; m_label : nat; m_path : mpath; m_use_bias : bool;
    m_modules : list module;               (* self.linear_region.module_list *)
    m_fmap : option fmap }.

  (** torchmps.py:366-382, 397-408: one of the two input regions built by [MPS.__init__]; [rnd k]
      gives the entries of the k-th tensor of random numbers *)
  Definition build_region (adaptive : bool) (output_dim bond_dim feature_dim : nat) (init_std : K) (use_bias : bool)
      (rnd : nat -> list nat -> K) (k n : nat) : res (list module) :=
    if 0 <? n then
      let* t := init_tensor K s0 [n; bond_dim; bond_dim; feature_dim] "slri"
                  (ITuple (if adaptive then "min_random_eye" else "random_zero") init_std [output_dim])
                  (mkT [n; bond_dim; bond_dim; feature_dim] (rnd k)) in
      let* m := input_region t use_bias None in Ok [m]
    else Ok [].
  (** torchmps.py:366-408: the list of modules built by [MPS.__init__] *)
  Definition build_modules (adaptive : bool) (input_dim output_dim bond_dim feature_dim label : nat)
      (init_std : K) (use_bias : bool) (rnd : nat -> list nat -> K) : res (list module) :=
    let* lmods := build_region adaptive output_dim bond_dim feature_dim init_std use_bias rnd 0 label in
    let* t := init_tensor K s0 [output_dim; bond_dim; bond_dim] "olr"
                (ITuple (if adaptive then "min_random_eye" else "random_eye") init_std [output_dim])
                (mkT [output_dim; bond_dim; bond_dim] (rnd 1)) in
    let* rmods := build_region adaptive output_dim bond_dim feature_dim init_std use_bias rnd 2 (input_dim - label) in
    Ok (lmods ++ [OutputSite t] ++ rmods).
  (** torchmps.py:356-358 *)
  Definition label_of (input_dim : nat) (label_site : option Z) : res nat :=
    let l := match label_site with None => Z.of_nat (input_dim / 2) | Some z => z end in
    let* _ := assert_ ((0 <=? l)%Z && (l <=? Z.of_nat input_dim)%Z) in
    Ok (Z.to_nat l).
  (** torchmps.py:434-436 *)
  Definition check_path (input_dim : nat) (p : mpath) : res unit :=
    let* b := path_true p in
    if b then assert_ (List.length (path_list p) =? input_dim) else Ok tt.
  (** torchmps.py:340-451 [MPS.__init__] with adaptive_mode=False *)
  Definition mps_init (input_dim output_dim bond_dim feature_dim : nat) (periodic_bc parallel_eval : bool)
      (label_site : option Z) (path : mpath) (init_std : K) (use_bias : bool) (rnd : nat -> list nat -> K) : res mps :=
    let* label := label_of input_dim label_site in
    let* mods := build_modules false input_dim output_dim bond_dim feature_dim label init_std use_bias rnd in
    let* _ := assert_ (region_len mods =? input_dim) in
    let* _ := check_path input_dim path in
    Ok (mkMps input_dim output_dim bond_dim feature_dim periodic_bc parallel_eval label path use_bias mods None).

  (** input_data[:, k] for an integer k, and torch.stack(..., dim=1) *)
  Definition index1 (x : T) (k : Z) : res T :=
    match shp x with
    | b :: w :: r =>
        let j := (if k <? 0 then k + Z.of_nat w else k)%Z in
        if ((0 <=? j)%Z && (j <? Z.of_nat w)%Z) then
          Ok (mkT (b :: r) (fun i => get x (hd 0 i :: Z.to_nat j :: tl i)))
        else Err IndexError
    | _ => Err IndexError
    end.
  Definition stack1 (ts : list T) : res T :=
    match ts with
    | [] => Err RuntimeError
    | t0 :: _ =>
        if forallb (fun t => list_eqb (shp t) (shp t0)) ts && (1 <=? ndim t0) then
          Ok (mkT (hd 0 (shp t0) :: List.length ts :: tl (shp t0))
                  (fun i => get (nth (nth 1 i 0) ts t0) (hd 0 i :: skipn 2 i)))
        else Err RuntimeError
    end.
  (** torchmps.py:470-474 *)
  Definition route (p : mpath) (x : T) : res T :=
    let* b := path_true p in
    if b then let* ts := rmap (index1 x) (path_list p) in stack1 ts else Ok x.

  (** the embedding by a feature map: torchmps.py:521-524, 226-229 *)
  Definition embed_map (f : fmap) (x : T) : res T :=
    let* rows := rmap (fun b => let* vs := rmap (fun n => f (get x [b; n])) (seq 0 (size 1 x)) in stack0 vs) (seq 0 (size 0 x)) in
    stack0 rows.
  (** the default embedding (x, 1-x): torchmps.py:543, 241-244 *)
  Definition embed_default (x : T) : T :=
    mkT [size 0 x; size 1 x; 2]
        (fun i => let v := get x [nth 0 i 0; nth 1 i 0] in if nth 2 i 0 =? 0 then v else rsub s1 v).
  (** torchmps.py:496-545 [MPS.embed_input] *)
  Definition mps_embed (m : mps) (x : T) : res T :=
    let* _ := assert_ ((ndim x =? 2) || (ndim x =? 3)) in
    let* _ := assert_ (size 1 x =? m_input m) in
    if ndim x =? 3 then
      if size 2 x =? m_feature m then Ok x else Err ValueError
    else match m_fmap m with
    | Some f => let* e := embed_map f x in
                let* _ := assert_ (list_eqb (shp e) [size 0 x; m_input m; m_feature m]) in Ok e
    | None => if m_feature m =? 2 then Ok (embed_default x) else Err RuntimeError
    end.
  (** torchmps.py:453-494 [MPS.forward] *)
  Definition mps_forward (m : mps) (x : T) : M T :=
    let! x1 := lift (route (m_path m) x) in
    let! x2 := lift (mps_embed m x1) in
    region_forward (m_modules m) (m_periodic m) (m_parallel m) x2.
  (** torchmps.py:547-570 [MPS.register_feature_map] *)
  Definition mps_register (m : mps) (f : option fmap) : res mps :=
    let* _ := (match f with
               | Some g => let* v := g s0 in if list_eqb (shp v) [m_feature m] then Ok tt else Err ValueError
               | None => Ok tt
               end) in
    Ok (mkMps (m_input m) (m_output m) (m_bond m) (m_feature m) (m_periodic m) (m_parallel m) (m_label m)
              (m_path m) (m_use_bias m) (m_modules m) f).

  (** ** TI_MPS *)
  Record ti_mps := mkTi {
    t_output : nat; t_bond : nat; t_feature : nat; t_parallel : bool;
    t_use_bias : bool; t_fixed_bias : bool;
    t_core : T;                            (* self.core_tensor *)
    t_vec : T;                             (* self.init_vector.vec *)
    t_mat : T;                             (* self.terminal_mat.mat *)
    t_bias : option T;                     (* self.bias_mat *)
    t_fmap : option fmap }.
  (** torchmps.py:24-75, 1442-1458, 1482-1508; [over b n] is n divided by bond_dim = b *)
  Definition ti_init (output_dim bond_dim feature_dim : nat) (parallel_eval fixed_ends : bool) (init_std : K)
      (use_bias fixed_bias : bool) (over : nat -> K -> K) (rnd : nat -> list nat -> K) : res ti_mps :=
    let* core := init_tensor K s0 [bond_dim; bond_dim; feature_dim] "lri" (ITuple "random_zero" init_std [])
                   (mkT [bond_dim; bond_dim; feature_dim] (rnd 0)) in
    let vec := tconst [bond_dim] (s1 : K) in
    let* mat := (if fixed_ends && (bond_dim <? output_dim) then Err ValueError
                 else if fixed_ends then Ok (eye2 K bond_dim output_dim)
                 else tzip sadd (eye2 K bond_dim output_dim)
                        (tmap (over bond_dim) (mkT [bond_dim; output_dim] (rnd 1)))) in
    let* bias := (if use_bias then
                    if fixed_bias then Ok (Some (eye2 K bond_dim bond_dim))
                    else let* b := init_tensor K s0 [bond_dim; bond_dim] "lr" (ITuple "random_eye" init_std [])
                                     (mkT [bond_dim; bond_dim] (rnd 2)) in Ok (Some b)
                  else Ok None) in
    Ok (mkTi output_dim bond_dim feature_dim parallel_eval use_bias fixed_bias core vec mat bias None).

  (** input of TI_MPS.forward: a tensor, or a list of tensors *)
  Inductive ti_input := TTensor (t : T) | TList (l : list T).
  (** torchmps.py:206-246 [TI_MPS.embed_input] *)
  Definition ti_embed (m : ti_mps) (x : T) : res T :=
    let* _ := assert_ (ndim x =? 2) in
    match t_fmap m with
    | Some f => let* e := embed_map f x in
                let* _ := assert_ (list_eqb (shp e) [size 0 x; size 1 x; t_feature m]) in Ok e
    | None => if t_feature m =? 2 then Ok (embed_default x) else Err RuntimeError
    end.
  (** torchmps.py:186-192: the sequences copied into a tensor of zeros *)
  Definition pad_batch (n_modes max_len feature : nat) (l : list T) : T :=
    mkT (firstn (Datatypes.S n_modes) [List.length l; max_len; feature])
        (fun i => let s := nth (nth 0 i 0) l (tconst [] s0) in
                  if nth 1 i 0 <? size 0 s then get s (tl i) else s0).
  (** torchmps.py:121-204 [TI_MPS.format_input] *)
  Definition ti_format (m : ti_mps) (inp : ti_input) : res T :=
    match inp with
    | TTensor x =>
        let* y := (if ndim x =? 2 then ti_embed m x else Ok x) in
        let* _ := assert_ (ndim y =? 3) in
        let* _ := assert_ (size 2 y =? t_feature m) in
        Ok y
    | TList l =>
        match l with
        | [] => Err IndexError
        | s0' :: _ =>
            let num_modes := ndim s0' in
            let* _ := assert_ ((num_modes =? 1) || (num_modes =? 2)) in
            let* _ := assert_ (forallb (fun s => ndim s =? num_modes) l) in
            let* _ := assert_ ((num_modes =? 1) || forallb (fun s => size 1 s =? t_feature m) l) in
            let max_len := fold_right Nat.max 0 (map (size 0) l) in
            let can_pad := t_use_bias m && t_fixed_bias m in
            if negb can_pad && existsb (fun s => negb (size 0 s =? max_len)) l then Err ValueError
            else
              let* b := (if can_pad then Ok (pad_batch num_modes max_len (t_feature m) l) else stack0 l) in
              if ndim b =? 2 then ti_embed m b else Ok b
        end
    end.
  (** torchmps.py:77-119 [TI_MPS.forward] *)
  Definition ti_forward (m : ti_mps) (inp : ti_input) : M T :=
    let! x := lift (ti_format m inp) in
    let batch_size := size 0 x in
    let seq_len := size 1 x in
    let! core := lift (expand (t_core m) [seq_len; t_bond m; t_bond m; t_feature m]) in
    let! region := lift (input_region core (t_use_bias m) (t_bias m)) in
    let! r := mod_forward region x in
    let! v := edge_vec K (t_vec m) true in
    let! o := output_mat K (t_mat m) false in
    let! c := lift (contractable_list K (map Atom [v; r; o])) in
    let! z := reduce K (t_parallel m) c in
    match z with
    | Atom a =>
        let! _ := lift (assert_ (String.eqb (a_bond a) "bo")) in
        let! _ := lift (assert_ (size 0 (a_ten a) =? batch_size)) in
        let! _ := lift (assert_ (size 1 (a_ten a) =? t_output m)) in
        ret (a_ten a)
    | _ => raise AttributeError
    end.
  (** torchmps.py:248-273 [TI_MPS.register_feature_map] *)
  Definition ti_register (m : ti_mps) (f : option fmap) : res ti_mps :=
    let* _ := (match f with
               | Some g => let* v := g s0 in if list_eqb (shp v) [t_feature m] then Ok tt else Err ValueError
               | None => Ok tt
               end) in
    Ok (mkTi (t_output m) (t_bond m) (t_feature m) (t_parallel m) (t_use_bias m) (t_fixed_bias m)
             (t_core m) (t_vec m) (t_mat m) (t_bias m) f).
End TorchMps.
Arguments InputRegion {K}. Arguments OutputSite {K}. Arguments InputSite {K}. Arguments MergedInput {K}. Arguments MergedOutput {K}.
Arguments mod_tensor {K}. Arguments mod_len {K}. Arguments mod_core_len {K}. Arguments size {K}.
Arguments m_input {K}. Arguments m_output {K}. Arguments m_bond {K}. Arguments m_feature {K}. Arguments m_periodic {K}.
Arguments m_parallel {K}. Arguments m_label {K}. Arguments m_path {K}. Arguments m_use_bias {K}. Arguments m_modules {K}. Arguments m_fmap {K}.
Arguments t_output {K}. Arguments t_bond {K}. Arguments t_feature {K}. Arguments t_parallel {K}. Arguments t_use_bias {K}.
Arguments t_fixed_bias {K}. Arguments t_core {K}. Arguments t_vec {K}. Arguments t_mat {K}. Arguments t_bias {K}. Arguments t_fmap {K}.
Arguments TTensor {K}. Arguments TList {K}.
