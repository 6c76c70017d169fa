(** * Utils: model of torchmps/utils.py (all of it).  torch.randn, torch.svd and numpy's shuffle are arguments of the
    model; what is known about them is a hypothesis of the theorems. *)
From Coq Require Import Reals.
From Verif Require Import Base Scalars Tensor Contractables.

(** ** tensor.view: same entries in row-major order *)
Definition iprod (l : list nat) : nat := fold_right Nat.mul 1 l.   (* utils.py:51-55 *)
Fixpoint ravel (sh idx : list nat) : nat :=
  match sh, idx with
  | _ :: sh', i :: idx' => i * iprod sh' + ravel sh' idx'
  | _, _ => 0
  end.
Fixpoint unravel (sh : list nat) (n : nat) : list nat :=
  match sh with
  | [] => []
  | _ :: sh' => n / iprod sh' :: unravel sh' (n mod iprod sh')
  end.
Definition view {A} (t : tensor A) (sh : list nat) : res (tensor A) :=
  if iprod (shp t) =? iprod sh
  then Ok (mkT sh (fun i => get t (unravel (shp t) (ravel sh i)))) else Err RuntimeError.

(** ** init_tensor *)
Section Init.
  Variable K : sops.
  (** torch.eye(m, n) *)
  Definition eye2 (m n : nat) : tensor K :=
    mkT [m; n] (fun i => if nth 0 i 0 =? nth 1 i 0 then s1 else s0).
  (** [init_method]: a string, or a tuple (name, std, init_dim, ...) *)
  Inductive init_method := IName (name : string) | ITuple (name : string) (std : K) (rest : list nat).
  Definition is_lr (c : ascii) : bool := Ascii.eqb c "l"%char || Ascii.eqb c "r"%char.
  (** shape[bond_str.index(c)] *)
  Definition bond_size (shape : list nat) (bs : list ascii) (c : ascii) : nat :=
    match index_of c bs with Some k => nth k shape 0 | None => 0 end.
  (** tensor[[slice(d) for d in dims]] = u, on a tensor of zeros of shape [shape]; u has
      exactly the shape [dims] *)
  Fixpoint within (idx dims : list nat) : bool :=
    match idx, dims with
    | i :: idx', d :: dims' => (i <? d) && within idx' dims'
    | _, _ => true
    end.
  Definition fill_zeros (shape dims : list nat) (u : tensor K) : tensor K :=
    mkT shape (fun i => if within i dims then get u i else s0).
  (** utils.py:160-253 [init_tensor]; [randn] is the value of torch.randn(shape), [dstd] the default 1e-9 *)
  Definition init_tensor (dstd : K) (shape : list nat) (bond_str : string) (m : init_method)
      (randn : tensor K) : res (tensor K) :=
    let bs := chars bond_str in
    let* p := (match m with
               | IName name => Ok (name, dstd, None)
               | ITuple name std rest =>
                   if String.eqb name "min_random_eye"
                   then match rest with d :: _ => Ok (name, std, Some d) | [] => Err IndexError end
                   else Ok (name, std, None)
               end) in
    let '(name, std, dim) := p in
    let* _ := assert_ (List.length shape =? List.length bs) in
    let* _ := assert_ (nodupb bs) in
    let noise := tmap (smul std) randn in
    if String.eqb name "random_zero" then Ok noise
    else if String.eqb name "random_eye" || String.eqb name "min_random_eye" then
      let* _ := assert_ (inb "l"%char bs && inb "r"%char bs) in
      let dl := bond_size shape bs "l"%char in
      let dr := bond_size shape bs "r"%char in
      let* q := (if String.eqb name "min_random_eye" then
          match dim with
          | None => Err NameError                      (* init_dim was never assigned *)
          | Some d =>
              let fits := (d <=? dl) && (d <=? dr) in
              let d' := if fits then d else Nat.min dl dr in
              let bd := if fits then (d, d) else (dl, dr) in
              Ok (bd, map (fun c => if is_lr c then d' else 1) bs,
                  map2 (fun c n => if is_lr c then d' else n) bs shape)
          end
        else Ok ((dl, dr), map2 (fun c n => if is_lr c then n else 1) bs shape, shape)) in
      let '((e0, e1), eye_shape, expand_shape) := q in
      let* e := view (eye2 e0 e1) eye_shape in
      let* e' := expand e expand_shape in
      let t := fill_zeros shape expand_shape e' in
      tzip sadd t noise
    else Err ValueError.
End Init.
Arguments IName {K}. Arguments ITuple {K}.

(** ** svd_flex, on real tensors *)
Definition is_space (c : ascii) : bool := Ascii.eqb c " "%char.
Definition islower (c : ascii) : bool := let n := nat_of_ascii c in (97 <=? n) && (n <=? 122).
(** s.split("->"), s.split(",") *)
Fixpoint split_arrow (s cur : list ascii) : list (list ascii) :=
  match s with
  | [] => [rev cur]
  | c :: s' =>
      match s' with
      | d :: s'' => if Ascii.eqb c "-"%char && Ascii.eqb d ">"%char
                    then rev cur :: split_arrow s'' [] else split_arrow s' (c :: cur)
      | [] => [rev (c :: cur)]
      end
  end.
Fixpoint split_comma (s cur : list ascii) : list (list ascii) :=
  match s with
  | [] => [rev cur]
  | c :: s' => if Ascii.eqb c ","%char then rev cur :: split_comma s' [] else split_comma s' (c :: cur)
  end.
(** utils.py:58-61: svd_string.replace(' ', '').split('->'), post_str.split(',') *)
Definition parse_svd (s : string) : res (list ascii * list ascii * list ascii) :=
  match split_arrow (filter (fun c => negb (is_space c)) (chars s)) [] with
  | [a; b] => match split_comma b [] with [l; r] => Ok (a, l, r) | _ => Err ValueError end
  | _ => Err ValueError
  end.
(** len(set(l)) *)
Definition set_len (l : list ascii) : nat := List.length (nodup ascii_dec l).
Definition without (c : ascii) (l : list ascii) : list ascii := filter (fun x => negb (Ascii.eqb x c)) l.

Section Svd.
  (** torch.svd: (U, S, V) for a matrix *)
  Variable svd : tensor R_ops -> tensor R_ops * tensor R_ops * tensor R_ops.
  Notation T := (tensor R_ops).
  (** torch.sort(svs, descending=True) *)
  Fixpoint insert_desc (x : R) (l : list R) : list R :=
    match l with
    | [] => [x]
    | y :: l' => if Rle_dec y x then x :: l else y :: insert_desc x l'
    end.
  Definition sort_desc (l : list R) : list R := fold_right insert_desc [] l.
  Definition vec_list (t : T) : list R := map (fun k => get t [k]) (seq 0 (nth 0 (shp t) 0)).
  Definition list_vec (l : list R) : T := mkT [List.length l] (fun i => nth (nth 0 i 0) l 0%R).
  (** utils.py:113-118 *)
  Fixpoint count_above (cutoff : R) (l : list R) : nat :=
    match l with
    | [] => 0
    | s :: l' => if Rlt_dec s cutoff then 0 else S (count_above cutoff l')
    end.
  (** resize an axis of a matrix or vector: cut it or pad it with zeros (utils.py:90-102, 126-135) *)
  Definition cut_cols (t : T) (n : nat) : T :=
    mkT [nth 0 (shp t) 0; n] (fun i => if nth 1 i 0 <? nth 1 (shp t) 0 then get t i else 0%R).
  Definition cut_rows (t : T) (n : nat) : T :=
    mkT [n; nth 1 (shp t) 0] (fun i => if nth 0 i 0 <? nth 0 (shp t) 0 then get t i else 0%R).
  Definition cut_vec (t : T) (n : nat) : T :=
    mkT [n] (fun i => if nth 0 i 0 <? nth 0 (shp t) 0 then get t i else 0%R).
  (** t[:, k:] = 0, t[k:] = 0 *)
  Definition zero_cols (t : T) (k : nat) : T := mkT (shp t) (fun i => if nth 1 i 0 <? k then get t i else 0%R).
  Definition zero_rows (t : T) (k : nat) : T := mkT (shp t) (fun i => if nth 0 i 0 <? k then get t i else 0%R).
  (** utils.py:5-157 [svd_flex].  [max_D = None] also stands for max_D = 0 (both are false in Python);
      [sv_len] is the length of sv_vec if it is given.  Returns left tensor, right tensor,
      bond dimension, and the new contents of sv_vec. *)
  Definition svd_flex (tensor0 : T) (svd_string : string) (max_D0 : option nat) (cutoff : R)
      (sv_right : bool) (sv_len : option nat) : res (T * T * nat * option T) :=
    let max_D := match max_D0 with Some 0 => None | m => m end in
    let* p := parse_svd svd_string in
    let '(init_str, left_str, right_str) := p in
    let all := init_str ++ left_str ++ right_str in
    let* _ := assert_ (forallb islower all) in
    let* _ := assert_ (set_len all =? List.length init_str + 1) in
    let* _ := assert_ (set_len init_str + set_len left_str + set_len right_str
                       =? List.length init_str + List.length left_str + List.length right_str) in
    match filter (fun c => inb c right_str) left_str with
    | [] => Err KeyError
    | bond_char :: _ =>
        let left_part := without bond_char left_str in
        let right_part := without bond_char right_str in
        let* t := einsum (str (init_str ++ chars "->" ++ left_part ++ right_part)) [tensor0] in
        let left_shape := firstn (List.length left_part) (shp t) in
        let right_shape := skipn (List.length left_part) (shp t) in
        let* m := view t [iprod left_shape; iprod right_shape] in
        let '(U, S0, V) := svd m in
        let S1 := list_vec (sort_desc (vec_list S0)) in
        let Vt := transE V in
        let '(S2, L2, R2) := match max_D with
                             | Some d => (cut_vec S1 d, cut_cols U d, cut_rows Vt d)
                             | None => (S1, U, Vt)
                             end in
        let* sv := (match sv_len with
                    | None => Ok None
                    | Some n => if list_eqb (shp S2) [n] then Ok (Some S2) else Err TypeError
                    end) in
        let truncation := count_above cutoff (vec_list S2) in
        if truncation =? 0 then Err RuntimeError
        else
          let '(d, S3, L3, R3) := match max_D with
                                  | Some d => (d, zero_rows S2 truncation, zero_cols L2 truncation, zero_rows R2 truncation)
                                  | None => (truncation, cut_vec S2 truncation, cut_cols L2 truncation, cut_rows R2 truncation)
                                  end in
          let* LR := (if sv_right
                      then let* r := einsum "l,lr->lr" [S3; R3] in Ok (L3, r)
                      else let* l := einsum "lr,r->lr" [L3; S3] in Ok (l, R3)) in
          let* lt := view (fst LR) (left_shape ++ [d]) in
          let* rt := view (snd LR) (d :: right_shape) in
          let* lt' := (if list_eqb (map nat_of_ascii left_str) (map nat_of_ascii (left_part ++ [bond_char])) then Ok lt
                       else einsum (str (left_part ++ [bond_char] ++ chars "->" ++ left_str)) [lt]) in
          let* rt' := (if list_eqb (map nat_of_ascii right_str) (map nat_of_ascii (bond_char :: right_part)) then Ok rt
                       else einsum (str ([bond_char] ++ right_part ++ chars "->" ++ right_str)) [rt]) in
          Ok (lt', rt', truncation, sv)
    end.
End Svd.

(** ** older helpers *)
(** t[i, label] = 1.0 for an integer label: a negative label counts from the end of the row; torch raises IndexError for
    labels outside of [-size, size) *)
Definition set_label {A} (t : tensor A) (i : nat) (label : Z) (v : A) : res (tensor A) :=
  let m := Z.of_nat (nth 1 (shp t) 0) in
  if ((- m <=? label) && (label <? m))%Z
  then let l := Z.to_nat (if (label <? 0)%Z then label + m else label)%Z in
       Ok (mkT (shp t) (fun idx => if (nth 0 idx 0 =? i) && (nth 1 idx 0 =? l) then v else get t idx))
  else Err IndexError.
(** utils.py:265-266, the loop of [onehot] *)
Fixpoint onehot_loop {S : sops} (t : tensor S) (i : nat) (labels : list Z) : res (tensor S) :=
  match labels with
  | [] => Ok t
  | l :: labels' => rbind (set_label t i l s1) (fun t' => onehot_loop t' (Datatypes.S i) labels')
  end.
(** utils.py:258-268 [onehot]; torch.zeros raises RuntimeError on a negative size *)
Definition onehot {S : sops} (labels : list Z) (max_value : Z) : res (tensor S) :=
  if (max_value <? 0)%Z then Err RuntimeError
  else onehot_loop (tconst [List.length labels; Z.to_nat max_value] s0) 0 labels.
(** np.random.seed(0); np.random.shuffle(a): rearranges a by a permutation that depends only
    on its length.  [perm n] lists the old positions in the new order. *)
Definition shuffle {A} (perm : nat -> list nat) (l : list A) (d : A) : list A :=
  map (fun i => nth i l d) (perm (List.length l)).
(** utils.py:271-293 [joint_shuffle] on CPU tensors, seen as the lists of their rows *)
Definition joint_shuffle {A B} (perm : nat -> list nat) (data : list A) (labels : list B) (da : A) (db : B)
  : list A * list B := (shuffle perm data da, shuffle perm labels db).

(** utils.py:296-354 [load_HV_data] for length >= 1; images with entries 0, 1 *)
Definition pattern_bit (length i j : nat) : nat := if Nat.testbit i (length - 1 - j) then 1 else 0.
Definition h_image (length i : nat) : tensor nat := mkT [length; length] (fun x => pattern_bit length i (nth 0 x 0)).
Definition v_image (length i : nat) : tensor nat := mkT [length; length] (fun x => pattern_bit length i (nth 1 x 0)).
Definition load_HV_data (perm : nat -> list nat) (length : nat)
  : (list (tensor nat) * list nat) * (list (tensor nat) * list nat) :=
  let num_images := 4 * (2 ^ (length - 1) - 1) in
  let num_patterns := num_images / 2 in
  let split := num_images / 4 in
  let images := flat_map (fun i => [h_image length i; v_image length i]) (seq 1 num_patterns) in
  let labels := flat_map (fun _ => [0; 1]) (seq 1 num_patterns) in
  let images' := shuffle perm images (h_image length 0) in
  let labels' := shuffle perm labels 0 in
  ((skipn split images', skipn split labels'), (firstn split images', firstn split labels')).
