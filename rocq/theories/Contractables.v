(** * Contractables: model of torchmps/contractables.py
    Python's binary operator dispatch, the class hierarchy, and the global batch size
    (class attribute Contractable.global_bs, a mutable variable shared by all models)
    are modelled; the scalars are those of [S]. *)
From Verif Require Import Base Scalars Tensor.

(** ** Computations that read and write Contractable.global_bs.
    A raised exception keeps the value the attribute had when it was raised. *)
Definition gbs := option nat.
Definition M (A : Type) := gbs -> res A * gbs.
Definition ret {A} (a : A) : M A := fun g => (Ok a, g).
Definition raise {A} (e : exn) : M A := fun g => (Err e, g).
Definition lift {A} (r : res A) : M A := fun g => (r, g).
Definition mbind {A B} (m : M A) (k : A -> M B) : M B :=
  fun g => match m g with (Ok a, g') => k a g' | (Err e, g') => (Err e, g') end.
Notation "'let!' x := m 'in' k" := (mbind m (fun x => k))
  (at level 200, x pattern, m at level 100, k at level 200, right associativity).
Fixpoint mmap {A B} (f : A -> M B) (l : list A) : M (list B) :=
  match l with
  | [] => ret []
  | x :: l' => let! y := f x in let! ys := mmap f l' in ret (y :: ys)
  end.
(** try: m except TypeError: h *)
Definition try_type {A} (m h : M A) : M A :=
  fun g => match m g with (Err TypeError, g') => h g' | r => r end.

(** ** Strings *)
Definition chars (s : string) : list ascii := list_ascii_of_string s.
Definition str (l : list ascii) : string := string_of_list_ascii l.
Definition inb (c : ascii) (l : list ascii) : bool := existsb (Ascii.eqb c) l.
Definition lowercases : list ascii := map ascii_of_nat (seq 97 26).
Fixpoint nodupb (l : list ascii) : bool :=
  match l with [] => true | c :: l' => negb (inb c l') && nodupb l' end.
(** l[l.index(c)] = d *)
Fixpoint replace_first (c d : ascii) (l : list ascii) : list ascii :=
  match l with [] => [] | x :: l' => if Ascii.eqb x c then d :: l' else x :: replace_first c d l' end.
Fixpoint index_of (c : ascii) (l : list ascii) : option nat :=
  match l with
  | [] => None
  | x :: l' => if Ascii.eqb x c then Some 0 else option_map Datatypes.S (index_of c l')
  end.
(** l.pop(): the last element and the rest *)
Definition pop {A} (l : list A) : option (A * list A) :=
  match rev l with [] => None | x :: r => Some (x, rev r) end.

Section Contractables.
  Variable S : sops.

  (** contractables.py:4, 236, 317, 334, 351, 382, 423: the classes whose instances have a
      tensor and a bond string *)
  Inductive kls := KBase | KMatRegion | KOutputCore | KSingleMat | KOutputMat | KEdgeVec | KScalar.
  Record atom := mkA { a_cls : kls; a_ten : tensor S; a_bond : string }.
  (** ... and contractables.py:167 ContractableList, which has neither.  [Raw] is a
      torch.Tensor that is not wrapped in a contractable. *)
  Inductive contr := Atom (a : atom) | CList (l : list contr) | Raw (t : tensor S).

  (** contractables.py:28-71 [Contractable.__init__].  The elif branch of lines 62-67 is
      unreachable: it repeats the condition of line 58. *)
  Definition init (c : kls) (t : tensor S) (bond : string) : M atom := fun g =>
    let num_dim := ndim t in
    let str_len := String.length bond in
    match shp t with
    | [] => (Err IndexError, g)                          (* tensor.size(0) *)
    | batch_dim :: _ =>
        match chars bond with
        | [] => (Err IndexError, g)                      (* bond_str[0] *)
        | b0 :: _ =>
            let isb := Ascii.eqb b0 "b"%char in
            if (negb (inb "b"%char (chars bond)) && (str_len =? num_dim))
               || (isb && (str_len =? num_dim + 1)) then
              match g with
              | Some gb =>
                  match expand (unsq_front 1 t) (gb :: shp t) with
                  | Ok t' => (Ok (mkA c t' (if isb then bond else String "b" bond)), g)
                  | Err e => (Err e, g)
                  end
              | None => (Err RuntimeError, g)
              end
            else if negb isb || negb (str_len =? num_dim) then (Err ValueError, g)
            else (Ok (mkA c t bond), Some batch_dim)
        end
    end.

  (** contractables.py:245-254 *)
  Definition mat_region (t : tensor S) : M atom :=
    if ((ndim t =? 3) || (ndim t =? 4)) && (dimE 1 (shp t) =? dimE 0 (shp t))
    then init KMatRegion t "bslr" else raise ValueError.
  (** contractables.py:322-331 *)
  Definition output_core (t : tensor S) : M atom :=
    if (ndim t =? 3) || (ndim t =? 4) then init KOutputCore t "bolr" else raise ValueError.
  (** contractables.py:339-348 *)
  Definition single_mat (t : tensor S) : M atom :=
    if (ndim t =? 2) || (ndim t =? 3) then init KSingleMat t "blr" else raise ValueError.
  (** contractables.py:356-367 *)
  Definition output_mat (t : tensor S) (is_left : bool) : M atom :=
    if (ndim t =? 2) || (ndim t =? 3)
    then init KOutputMat t (if is_left then "bro" else "blo") else raise ValueError.
  (** contractables.py:391-402 *)
  Definition edge_vec (t : tensor S) (is_left : bool) : M atom :=
    if (ndim t =? 1) || (ndim t =? 2)
    then init KEdgeVec t (if is_left then "br" else "bl") else raise ValueError.
  (** contractables.py:428-443: the test [shape is []] is never true *)
  Definition scalar (t : tensor S) : M atom :=
    if ndim t =? 1 then init KScalar t "b" else raise ValueError.

  (** torch.bmm *)
  Definition bmm (a b : tensor S) : res (tensor S) :=
    match shp a, shp b with
    | [b1; n; m], [b2; m'; p] =>
        if (b1 =? b2) && (m =? m') then
          Ok (mkT [b1; n; p] (fun i => bsum m (fun k =>
                smul (get a [nth 0 i 0; nth 1 i 0; k]) (get b [nth 0 i 0; k; nth 2 i 0]))))
        else Err RuntimeError
    | _, _ => Err RuntimeError
    end.

  (** contractables.py:106-134: the einsum string built by [Contractable.__mul__]: the two
      renamed bond strings and the output string *)
  Fixpoint rename (bs0 bs1 : list ascii) (free : list ascii) : option (list ascii * list ascii) :=
    match bs1 with
    | [] => Some ([], free)
    | c :: bs1' =>
        if inb c bs0 && negb (inb c (chars "blr")) then
          match pop free with
          | None => None
          | Some (d, free') =>
              match rename bs0 bs1' free' with Some (r, f) => Some (d :: r, f) | None => None end
          end
        else match rename bs0 bs1' free with Some (r, f) => Some (c :: r, f) | None => None end
    end.
  Definition ein_strings (bs0 bs1 : list ascii) : option (list ascii * list ascii * list ascii) :=
    let free := filter (fun c => negb (inb c bs0 || inb c bs1)) lowercases in
    match rename bs0 bs1 free with
    | None => None
    | Some (bs1', free') =>
        match pop free' with
        | None => None
        | Some (sum_char, _) =>
            let bs0'' := replace_first "r"%char sum_char bs0 in
            let bs1'' := replace_first "l"%char sum_char bs1' in
            let specials := sum_char :: chars "blr" in
            let out := ["b"%char] ++ filter (fun c => negb (inb c specials)) bs0''
                       ++ filter (fun c => negb (inb c specials)) bs1''
                       ++ (if inb "l"%char bs0'' then ["l"%char] else [])
                       ++ (if inb "r"%char bs1'' then ["r"%char] else []) in
            Some (bs0'', bs1'', out)
        end
    end.
  (** contractables.py:99-104 *)
  Definition fmt_ok (c : ascii) (bs : list ascii) : bool :=
    match bs with b0 :: _ => Ascii.eqb b0 "b"%char | [] => false end
    && nodupb bs && forallb (fun x => inb x lowercases) bs && inb c bs.

  (** contractables.py:139-149: wrap the product in the class given by its bond string *)
  Definition wrap (t : tensor S) (out : string) : M atom :=
    if String.eqb out "br" then edge_vec t true
    else if String.eqb out "bl" then edge_vec t false
    else if String.eqb out "blr" then single_mat t
    else if String.eqb out "bolr" then output_core t
    else init KBase t out.
  Definition some_atom (m : M atom) : M (option contr) := let! a := m in ret (Some (Atom a)).

  (** contractables.py:73-149 [Contractable.__mul__]; None is NotImplemented *)
  Definition base_mul (rmul : bool) (self : atom) (other : contr) : M (option contr) :=
    match other with
    | CList _ | Raw _ => ret None
    | Atom o =>
        match a_cls o with
        | KScalar | KMatRegion => ret None
        | _ =>
            let '(x, y) := if rmul then (o, self) else (self, o) in
            let bs0 := chars (a_bond x) in let bs1 := chars (a_bond y) in
            if fmt_ok "r"%char bs0 && fmt_ok "l"%char bs1 then
              match ein_strings bs0 bs1 with
              | None => raise IndexError
              | Some (s0, s1, out) =>
                  let! t := lift (einsum (str (s0 ++ chars "," ++ s1 ++ chars "->" ++ out))
                                         [a_ten x; a_ten y]) in
                  some_atom (wrap t (str out))
              end
            else raise AssertionError
        end
    end.

  (** contractables.py:256-283 [MatRegion.__mul__] *)
  Fixpoint bmm_all (rmul : bool) (vec : tensor S) (ms : list (tensor S)) : res (tensor S) :=
    match ms with
    | [] => Ok vec
    | m :: ms' => let* v := (if rmul then bmm vec m else bmm m vec) in bmm_all rmul v ms'
    end.
  Definition region_mul (rmul : bool) (self : atom) (other : contr) : M (option contr) :=
    match other with
    | Atom o =>
        match a_cls o with
        | KEdgeVec =>
            let mats := a_ten self in
            let num_mats := nth 1 (shp mats) 0 in
            if num_mats =? 0 then raise RuntimeError   (* torch.chunk into 0 chunks *)
            else
              (* edge_vec.tensor has two axes: unsqueeze(1) / unsqueeze(2) *)
              let vec := unsqE (if rmul then 1 else 0) (a_ten o) in
              let mat_list := map (fun k => selE 2 mats k) (seq 0 num_mats) in
              let! v := lift (bmm_all rmul vec (if rmul then mat_list else rev mat_list)) in
              some_atom (edge_vec (squeezeE (if rmul then 1 else 0) v) rmul)
        | _ => ret None
        end
    | _ => ret None
    end.
  (** contractables.py:369-379 [OutputMat.__mul__]; [raise NotImplemented] is a TypeError *)
  Definition outmat_mul (rmul : bool) (self : atom) (other : contr) : M (option contr) :=
    match other with
    | Atom o => match a_cls o with KEdgeVec => base_mul rmul self other | _ => raise TypeError end
    | _ => raise TypeError
    end.
  (** contractables.py:404-420 [EdgeVec.__mul__] *)
  Definition edge_mul (self : atom) (other : contr) : M (option contr) :=
    match other with
    | Atom o =>
        match a_cls o with
        | KEdgeVec =>
            let l := unsqE 1 (a_ten self) in let r := unsqE 0 (a_ten o) in
            let! s := lift (bmm l r) in
            some_atom (scalar (mkT [nth 0 (shp l) 0] (fun i => get s [nth 0 i 0; 0; 0])))
        | _ => ret None
        end
    | _ => ret None
    end.
  (** contractables.py:445-465 [Scalar.__mul__] *)
  Definition scalar_mul (self : atom) (other : contr) : M (option contr) :=
    match other with
    | CList _ | Raw _ => raise AttributeError          (* no attribute .tensor *)
    | Atom o =>
        let bond := chars (a_bond o) in
        let! t := lift (einsum (str (bond ++ chars ",b->" ++ bond)) [a_ten o; a_ten self]) in
        match a_cls o with
        | KBase => some_atom (init KBase t (a_bond o))
        | KMatRegion => some_atom (mat_region t)
        | KOutputCore => some_atom (output_core t)
        | KSingleMat => some_atom (single_mat t)
        | KScalar => some_atom (scalar t)
        | KEdgeVec | KOutputMat => raise TypeError     (* missing positional argument *)
        end
    end.

  (** The error of  item * tensor  and  tensor * item  for a bare torch.Tensor: the methods
      of [item] return NotImplemented (then Python raises TypeError), or raise. *)
  Definition raw_error (item : contr) : exn :=
    match item with
    | Atom a => match a_cls a with KScalar => AttributeError | _ => TypeError end
    | CList _ => AssertionError
    | Raw _ => TypeError
    end.
  (** contractables.py:188-210 [ContractableList.__mul__]; the products multiply bare tensors *)
  Definition list_mul (rmul : bool) (l : list contr) (other : contr) : M (option contr) :=
    match other with
    | Atom o =>
        match (if rmul then l else rev l) with
        | [] => ret (Some (Raw (a_ten o)))
        | item :: _ => raise (raw_error item)
        end
    | _ => raise AssertionError
    end.

  (** self.__mul__(other) and self.__rmul__(other), by the class of self.  EdgeVec inherits
      [Contractable.__rmul__] (contractables.py:151-155), which calls self.__mul__ with a
      keyword that EdgeVec.__mul__ does not have: TypeError. *)
  Definition lmul_method (self other : contr) : M (option contr) :=
    match self with
    | Raw _ => ret None
    | CList l => list_mul false l other
    | Atom a =>
        match a_cls a with
        | KBase | KOutputCore | KSingleMat => base_mul false a other
        | KMatRegion => region_mul false a other
        | KOutputMat => outmat_mul false a other
        | KEdgeVec => edge_mul a other
        | KScalar => scalar_mul a other
        end
    end.
  Definition rmul_method (self other : contr) : M (option contr) :=
    match self with
    | Raw _ => ret None
    | CList l => list_mul true l other
    | Atom a =>
        match a_cls a with
        | KBase | KOutputCore | KSingleMat => base_mul true a other
        | KMatRegion => region_mul true a other
        | KOutputMat => outmat_mul true a other
        | KEdgeVec => raise TypeError
        | KScalar => scalar_mul a other
        end
    end.
  (** Python:  x * y.  If both have the same class only x.__mul__ is tried; if the class of y
      is a subclass of that of x which overrides __rmul__, y.__rmul__ is tried first;
      otherwise x.__mul__, then y.__rmul__. *)
  Definition same_class (x y : contr) : bool :=
    match x, y with
    | Atom a, Atom b =>
        match a_cls a, a_cls b with
        | KBase, KBase | KMatRegion, KMatRegion | KOutputCore, KOutputCore
        | KSingleMat, KSingleMat | KOutputMat, KOutputMat | KEdgeVec, KEdgeVec
        | KScalar, KScalar => true
        | _, _ => false
        end
    | CList _, CList _ | Raw _, Raw _ => true
    | _, _ => false
    end.
  Definition right_first (x y : contr) : bool :=
    match x, y with
    | Atom a, Atom b =>
        match a_cls a, a_cls b with
        | KBase, (KMatRegion | KOutputMat | KScalar) => true
        | _, _ => false
        end
    | Atom a, CList _ => match a_cls a with KBase => true | _ => false end
    | _, _ => false
    end.
  Definition or_else (m h : M (option contr)) : M contr :=
    let! r := m in
    match r with
    | Some c => ret c
    | None => let! r' := h in match r' with Some c => ret c | None => raise TypeError end
    end.
  Definition mul (x y : contr) : M contr :=
    if same_class x y then or_else (lmul_method x y) (ret None)
    else if right_first x y then or_else (rmul_method y x) (lmul_method x y)
    else or_else (lmul_method x y) (rmul_method y x).

  (** contractables.py:285-314 [MatRegion.reduce]; the loop halves [size], so [fuel] = initial
      size is enough *)
  Fixpoint region_loop (fuel size : nat) (mats : tensor S) : res (tensor S) :=
    if size <=? 1 then Ok mats
    else match fuel with
    | 0 => Err OutOfFuel
    | Datatypes.S fuel' =>
        let half := size / 2 in
        let nice := 2 * half in
        let even := sliceE 2 half (fun p => 2 * p) mats in
        let odd := sliceE 2 half (fun p => 2 * p + 1) mats in
        let leftover := sliceE 2 (nth 1 (shp mats) 0 - nice) (fun p => nice + p) mats in
        let* m := einsum "bslu,bsur->bslr" [even; odd] in
        let* m' := cat2E 2 m leftover in
        region_loop fuel' (half + (size mod 2)) m'
    end.
  Definition region_reduce (a : atom) : M atom :=
    let size := nth 1 (shp (a_ten a)) 0 in
    let! m := lift (region_loop size size (a_ten a)) in
    single_mat (squeezeE 2 m).

  (** contractables.py:225-233: the loop of [ContractableList.reduce] on the list (first
      element first).  Each round shortens the list by one. *)
  Definition mul_last (l : list contr) : M (list contr) :=
    match rev l with
    | y :: x :: r => let! z := mul x y in ret (rev r ++ [z])
    | _ => raise IndexError
    end.
  Definition mul_first (l : list contr) : M (list contr) :=
    match l with
    | x :: y :: r => let! z := mul x y in ret (z :: r)
    | _ => raise IndexError
    end.
  Fixpoint reduce_loop (fuel : nat) (l : list contr) : M contr :=
    match l with
    | [] => raise IndexError                            (* c_list[0] *)
    | [c] => ret c
    | _ => match fuel with
           | 0 => raise OutOfFuel
           | Datatypes.S fuel' =>
               let! l' := try_type (mul_last l) (mul_first l) in reduce_loop fuel' l'
           end
    end.
  (** [reduce()] of any contractable: contractables.py:157-164 (identity), 285-314, 212-233.
      Nested lists are reduced with the default parallel_eval = False. *)
  Fixpoint reduce (par : bool) (c : contr) : M contr :=
    match c with
    | Raw t => ret c
    | Atom a => match a_cls a with
                | KMatRegion => let! s := region_reduce a in ret (Atom s)
                | _ => ret c
                end
    | CList l =>
        let! l' := (if par
          then (fix red (l : list contr) : M (list contr) :=
                  match l with
                  | [] => ret []
                  | x :: l' => let! y := reduce false x in let! ys := red l' in ret (y :: ys)
                  end) l
          else ret l) in
        reduce_loop (List.length l') l'
    end.
  (** contractables.py:175-186 [ContractableList.__init__]: the argument is a list of
      contractables ([Raw] items are rejected); [contractable_list is []] is never true *)
  Definition is_contractable (c : contr) : bool := match c with Raw _ => false | _ => true end.
  Definition contractable_list (l : list contr) : res contr :=
    if forallb is_contractable l then Ok (CList l) else Err ValueError.
End Contractables.
Arguments mkA {S}. Arguments a_cls {S}. Arguments a_ten {S}. Arguments a_bond {S}.
Arguments Atom {S}. Arguments CList {S}. Arguments Raw {S}.
