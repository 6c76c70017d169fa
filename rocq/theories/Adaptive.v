(** * Adaptive: model of the adaptive mode of torchmps/torchmps.py (MergedLinearRegion and the
    merge/unmerge methods of the modules).  The state of the modules is modelled by values: views
    that share memory with the tensor they were sliced from are copies here.  After an exception
    inside a flip the state of the object is not modelled. *)
From Coq Require Import Reals.
From Verif Require Import Base Scalars Tensor Contractables Utils TorchMps.

Section Merge.
  Variable K : cring.
  Notation T := (tensor K).
  Notation mod_ := (module K).

  (** t[a:a+n] and t[b::2] along the first axis, n entries *)
  Definition slice0 (a n : nat) (t : T) : T := mkT (n :: tl (shp t)) (fun i => get t (a + hd 0 i :: tl i)).
  Definition step2 (b n : nat) (t : T) : T := mkT (n :: tl (shp t)) (fun i => get t (2 * hd 0 i + b :: tl i)).
  (** torchmps.py:1140-1151 [MergedInput.__init__] *)
  Definition merged_input (t : T) : res mod_ :=
    let* _ := assert_ (ndim t =? 5) in
    let* _ := assert_ (size 1 t =? size 2 t) in
    let* _ := assert_ (size 3 t =? size 4 t) in
    Ok (MergedInput t).
  (** torchmps.py:1340-1348 [MergedOutput.__init__] *)
  Definition merged_output (t : T) (left_output : bool) : res mod_ :=
    let* _ := assert_ (ndim t =? 4) in Ok (MergedOutput t left_output).

  (** torchmps.py:1082-1093, 1071: InputRegion(t)._merge(offset=0)[0] when the number of sites of t
      is even; None for no sites.  tensor[0::2] and tensor[1::2] then have half the sites each. *)
  Definition merge_even (t : T) : res (option mod_) :=
    if size 0 t =? 0 then Ok None
    else
      let h := size 0 t / 2 in
      let* m := einsum "slui,surj->slrij" [step2 0 h t; step2 1 h t] in
      let* r := merged_input m in
      Ok (Some r).
  (** torchmps.py:1095-1104 [InputRegion.__getitem__] for a slice, followed by _merge(offset=0)[0] *)
  Definition merge_slice (a n : nat) (t : T) : res (option mod_) :=
    let* _ := input_region K (slice0 a n t) true None in merge_even (slice0 a n t).
  Definition opt_list {A} (o : option A) : list A := match o with Some x => [x] | None => [] end.
  (** torchmps.py:1057-1093 [InputRegion._merge].  The recursive calls have offset 0 and an even
      number of sites, so that they do not recurse further.  For a region without sites the code
      returns [None], on which the caller fails (AttributeError); no such region is ever made. *)
  Definition region_merge (t : T) (offset : nat) : res (list mod_) :=
    let* _ := assert_ ((offset =? 0) || (offset =? 1)) in
    let n := size 0 t in
    if n =? 0 then Err AttributeError
    else
      let odd := n mod 2 =? 1 in
      if offset =? 1 then
        if odd then let* m := merge_slice 1 (n - 1) t in Ok (InputSite (sel0 t 0) :: opt_list m)
        else let* m := merge_slice 1 (n - 2) t in
             Ok (InputSite (sel0 t 0) :: opt_list m ++ [InputSite (sel0 t (n - 1))])
      else
        if odd then let* m := merge_slice 0 (n - 1) t in Ok (opt_list m ++ [InputSite (sel0 t (n - 1))])
        else let* m := merge_even t in Ok (opt_list m).

  (** torch.cat of two tensors along the first axis (the other axes are asserted to be equal),
      wrapped as an InputRegion: torchmps.py:955-966 *)
  Definition join_regions (l r : T) : res (option mod_) :=
    let* _ := assert_ (list_eqb (tl (shp l)) (tl (shp r))) in
    let* m := input_region K
                (mkT (size 0 l + size 0 r :: tl (shp l))
                     (fun i => if hd 0 i <? size 0 l then get l i else get r (hd 0 i - size 0 l :: tl i))) true None in
    Ok (Some m).
  (** torchmps.py:914-970 [MergedLinearRegion.combine] *)
  Definition combine_cores (merging : bool) (a b : mod_) : res (option mod_) :=
    match merging, a, b with
    | true, InputSite l, OutputSite r =>
        let* t := einsum "lui,our->olri" [l; r] in
        let* m := merged_output t false in Ok (Some m)
    | true, OutputSite l, InputSite r =>
        let* t := einsum "olu,uri->olri" [l; r] in
        let* m := merged_output t true in Ok (Some m)
    | false, InputSite l, InputRegion r _ _ => join_regions (unsq_front 1 l) r
    | false, InputRegion l _ _, InputSite r => join_regions l (unsq_front 1 r)
    | _, _, _ => Ok None
    end.
  (** torchmps.py:803-829, 874-893: one sweep over the list.  [mode] is [Some offset] when merging,
      None when unmerging (then pairs are combined at any position).  The sweep of a list with fewer
      than two entries is empty. *)
  Fixpoint sweep (mode : option nat) (site_num : nat) (l : list mod_) : res (list mod_) :=
    match l with
    | a :: ((b :: rest) as tail) =>
        let* c := combine_cores (match mode with Some _ => true | None => false end) a b in
        match c, (match mode with Some offset => offset =? site_num mod 2 | None => true end) with
        | Some c, true =>
            let* _ := (match mode with
                       | Some _ => assert_ (mod_core_len c =? mod_core_len a + mod_core_len b)
                       | None => Ok tt end) in
            let* r := (match rest with [x] => Ok [x] | _ => sweep mode (site_num + mod_core_len c) rest end) in
            Ok (c :: r)
        | _, _ =>
            let* r := (match tail with [x] => Ok [x] | _ => sweep mode (site_num + mod_core_len a) tail end) in
            Ok (a :: r)
        end
    | _ => Ok []
    end.
  (** torchmps.py:801-835, 871-899: sweeps until the length of the list does not change *)
  Fixpoint sweeps (fuel : nat) (mode : option nat) (l : list mod_) : res (list mod_) :=
    match fuel with
    | 0 => Err OutOfFuel
    | S f => let* c := sweep mode 0 l in
             if List.length c =? List.length l then Ok l else sweeps f mode c
    end.
  (** torchmps.py:781-797 *)
  Fixpoint merge_internal (site_num : nat) (l : list mod_) : res (list mod_) :=
    match l with
    | [] => Ok []
    | m :: r =>
        let* _ := assert_ (match m with MergedInput _ | MergedOutput _ _ => false | _ => true end) in
        let* ms := (match m with InputRegion t _ _ => region_merge t (site_num mod 2) | _ => Ok [m] end) in
        let* rs := merge_internal (site_num + mod_core_len m) r in
        Ok (ms ++ rs)
    end.
  (** torchmps.py:766-835 [MergedLinearRegion._merge], the merged list *)
  Definition merge_mods (offset : nat) (l : list mod_) : res (list mod_) :=
    let* _ := assert_ ((offset =? 0) || (offset =? 1)) in
    let* m := merge_internal offset l in
    sweeps (S (List.length m)) (Some offset) m.
  (** torchmps.py:845-849: the tensors of an existing list are overwritten *)
  Definition set_tensor (m : mod_) (t : T) : mod_ :=
    match m with
    | InputRegion _ ub b => InputRegion t ub b
    | OutputSite _ => OutputSite t
    | InputSite _ => InputSite t
    | MergedInput _ => MergedInput t
    | MergedOutput _ lo => MergedOutput t lo
    end.
  Fixpoint store_each (old new : list mod_) : res (list mod_) :=
    match old, new with
    | o :: old', n :: new' =>
        let* _ := assert_ (list_eqb (shp (mod_tensor o)) (shp (mod_tensor n))) in
        let* r := store_each old' new' in
        Ok (set_tensor o (mod_tensor n) :: r)
    | _, _ => Ok []
    end.
  Definition store (old new : list mod_) : res (list mod_) :=
    let* _ := assert_ (List.length old =? List.length new) in store_each old new.
End Merge.
Arguments slice0 {K}. Arguments step2 {K}. Arguments set_tensor {K}.

Section Unmerge.
  Notation K := R_cring.
  Notation T := (tensor R_cring).
  Notation mod_ := (module R_cring).
  (** torch.svd *)
  Variable svd : tensor R_ops -> tensor R_ops * tensor R_ops * tensor R_ops.

  Notation split_ := (list mod_ * list (option nat) * list (option T))%type.
  (** torchmps.py:1178-1206 [MergedInput._unmerge], 1367-1406 [MergedOutput._unmerge]; None for the
      modules that have no such method *)
  Definition unmerge_mod (cutoff : R) (m : mod_) : option (res split_) :=
    match m with
    | MergedInput t => Some (
        let max_D := size 1 t in
        let* parts := rmap (fun s => svd_flex svd (sel0 t s) "lrij->lui,urj" (Some max_D) cutoff true (Some max_D))
                           (seq 0 (size 0 t)) in
        let* st := stack0 (flat_map (fun p => let '(l, r, _, _) := p in [l; r]) parts) in
        let* r := input_region K st true None in
        Ok ([r], None :: flat_map (fun p => let '(_, _, d, _) := p in [Some d; None]) parts,
                 None :: flat_map (fun p => let '(_, _, _, sv) := p in [sv; None]) parts))
    | MergedOutput t true => Some (
        let max_D := size 2 t in
        let* p := svd_flex svd t "olri->olu,uri" (Some max_D) cutoff true (Some max_D) in
        let '(o, i, d, sv) := p in
        Ok ([OutputSite (o : T); InputSite (i : T)], [None; Some d; None], [None; sv; None]))
    | MergedOutput t false => Some (
        let max_D := size 1 t in
        let* p := svd_flex svd t "olri->our,lui" (Some max_D) cutoff true (Some max_D) in
        let '(o, i, d, sv) := p in
        Ok ([InputSite (i : T); OutputSite (o : T)], [None; Some d; None], [None; sv; None]))
    | _ => None
    end.
  (** torchmps.py:852-869: the loop; the initial [None] of bond_list and sv_list is added by [unmerge_mods] *)
  Fixpoint unmerge_each (cutoff : R) (l : list mod_) : res split_ :=
    match l with
    | [] => Ok ([], [], [])
    | m :: r =>
        let* p := (match unmerge_mod cutoff m with
                   | Some u => let* q := u in let '(ms, bonds, svs) := q in Ok (ms, tl bonds, tl svs)
                   | None => let* _ := assert_ (match m with InputRegion _ _ _ => false | _ => true end) in
                             Ok ([m], [None], [None])
                   end) in
        let '(ms, bonds, svs) := p in
        let* q := unmerge_each cutoff r in
        let '(ms', bonds', svs') := q in
        Ok (ms ++ ms', bonds ++ bonds', svs ++ svs')
    end.
  (** torch.norm *)
  Definition norm (t : T) : R := sqrt (fold_right Rplus 0%R (map (fun i => (get t i * get t i)%R) (all_idx (shp t)))).
  (** torchmps.py:1106, 1208, 1263, 1303, 1408 [get_norm] *)
  Definition get_norm (m : mod_) : list R :=
    match m with
    | InputRegion t _ _ | MergedInput t => map (fun s => norm (sel0 t s)) (seq 0 (size 0 t))
    | OutputSite t | InputSite t | MergedOutput t _ => [norm t]
    end.
  (** torchmps.py:1112, 1214, 1269, 1309, 1414 [rescale_norm] *)
  Definition rescale_norm (m : mod_) (scales : list R) : res mod_ :=
    match m with
    | InputRegion t _ _ | MergedInput t =>
        let* _ := assert_ (List.length scales =? size 0 t) in
        Ok (set_tensor m (mkT (shp t) (fun i => (get t i * nth (hd 0%nat i) scales 1)%R)))
    | OutputSite t | InputSite t | MergedOutput t _ =>
        match scales with
        | [s] => Ok (set_tensor m (mkT (shp t) (fun i => (get t i * s)%R)))
        | _ => Err AssertionError
        end
    end.
  (** torchmps.py:901-912: all cores get the same norm.  The logarithm of a norm that is 0 is -inf;
      that core then becomes NaN and all others 0, which is not followed further. *)
  Definition equalize (l : list mod_) : res (list mod_) :=
    let norms := flat_map get_norm l in
    if List.length norms =? 0 then Err ZeroDivisionError
    else if existsb (fun x => if Req_EM_T x 0 then true else false) norms then Err NotANumber
    else
      let log_scale := (fold_right Rplus 0%R (map ln norms) / INR (List.length norms))%R in
      rmap (fun m => rescale_norm m (map (fun n => exp (log_scale - ln n)) (get_norm m))) l.
  (** torchmps.py:851-912 [MergedLinearRegion._unmerge] *)
  Definition unmerge_mods (cutoff : R) (l : list mod_) : res split_ :=
    let* p := unmerge_each cutoff l in
    let '(ms, bonds, svs) := p in
    let* c := sweeps K (S (List.length ms)) None ms in
    let* e := equalize c in
    Ok (e, None :: bonds, None :: svs).

  (** torchmps.py:863, 909-912: a core that is neither split nor joined with a region is the same object in
      the list that was split and in the list whose cores are rescaled, so that the parameter of the old list
      is rescaled in place.  These are the unmerged output core, and an unmerged input core that is still there as
      the first or last module after joining (an unmerged input core is always at an end of a merged list). *)
  Definition is_site (m : option mod_) : bool := match m with Some (InputSite _) => true | _ => false end.
  Definition shared (n : nat) (c : list mod_) (i : nat) (m : mod_) : bool :=
    match m with
    | OutputSite _ => true
    | InputSite _ => ((i =? 0) && is_site (nth_error c 0)) || ((i =? n - 1) && is_site (nth_error c (List.length c - 1)))
    | _ => false
    end.
  Definition stale (cutoff : R) (l : list mod_) : list mod_ :=
    match (let* p := unmerge_each cutoff l in sweeps K (S (List.length (fst (fst p)))) None (fst (fst p))) with
    | Ok c =>
        let norms := flat_map get_norm c in
        let log_scale := (fold_right Rplus 0%R (map ln norms) / INR (List.length norms))%R in
        map (fun p => let '(i, m) := p in
               if shared (List.length l) c i m
               then set_tensor m (mkT (shp (mod_tensor m)) (fun j => (get (mod_tensor m) j * exp (log_scale - ln (norm (mod_tensor m))))%R))
               else m) (combine (seq 0 (List.length l)) l)
    | Err _ => l
    end.

  (** The state of a MergedLinearRegion.  self.module_list is module_list_0 or module_list_1,
      according to self.offset, between two calls. *)
  Record region := mkReg {
    g_list0 : list mod_; g_list1 : list mod_; g_offset : nat; g_counter : Z; g_threshold : Z; g_cutoff : R }.
  Definition g_list (g : region) (o : nat) : list mod_ := if o =? 0 then g_list0 g else g_list1 g.
  Definition g_active (g : region) : list mod_ := g_list g (g_offset g).
  (** torchmps.py:708-732 [MergedLinearRegion.__init__] *)
  Definition region_init (l : list mod_) (cutoff : R) (threshold : Z) : res region :=
    let* l0 := merge_mods K 0 l in
    let* l1 := merge_mods K 1 l in
    Ok (mkReg l0 l1 0 0%Z threshold cutoff).
  (** torchmps.py:746-758: flip if the counter has reached the threshold, and count the batch *)
  Definition region_step (g : region) (batch : nat) : res (region * option (list (option nat) * list (option T))) :=
    if (g_threshold g <=? g_counter g)%Z then
      let* p := unmerge_mods (g_cutoff g) (g_active g) in
      let '(ms, bonds, svs) := p in
      let o := (g_offset g + 1) mod 2 in
      let* new := merge_mods K o ms in
      let* new' := store K (g_list g o) new in
      let c := (g_counter g - g_threshold g + Z.of_nat batch)%Z in
      let old := stale (g_cutoff g) (g_active g) in
      Ok (if o =? 0 then mkReg new' old o c (g_threshold g) (g_cutoff g)
          else mkReg old new' o c (g_threshold g) (g_cutoff g), Some (bonds, svs))
    else Ok (mkReg (g_list0 g) (g_list1 g) (g_offset g) (g_counter g + Z.of_nat batch)%Z (g_threshold g) (g_cutoff g), None).

  (** An MPS with adaptive_mode=True.  [a_cfg] holds the attributes it shares with the other
      models; its m_modules is not used, the modules are in [a_reg]. *)
  Record ad_mps := mkAd { a_cfg : mps R_cring; a_reg : region; a_bonds : list nat; a_svs : list T }.
  (** torchmps.py:340-451 [MPS.__init__] with adaptive_mode=True *)
  Definition ad_init (input_dim output_dim bond_dim feature_dim : nat) (periodic_bc parallel_eval : bool)
      (label_site : option Z) (path : mpath) (init_std : R) (cutoff : R) (threshold : Z) (rnd : nat -> list nat -> R) : res ad_mps :=
    let* label := label_of input_dim label_site in
    let* mods := build_modules K true input_dim output_dim bond_dim feature_dim label init_std false rnd in
    let* g := region_init mods cutoff threshold in
    let* _ := assert_ (region_len K (g_active g) =? input_dim) in
    let* _ := check_path input_dim path in
    let bonds := repeat bond_dim (input_dim + 2) in
    let bonds' := if periodic_bc then bonds
                  else map (fun i => if (i =? 0) || (i =? input_dim + 1) then 1 else bond_dim) (seq 0 (input_dim + 2)) in
    Ok (mkAd (mkMps K input_dim output_dim bond_dim feature_dim periodic_bc parallel_eval label path false [] None)
             g bonds' (repeat (mkT [bond_dim] (fun _ => (-1)%R)) (input_dim + 2))).
  (** torchmps.py:485-492: the loop over the new bonds *)
  Fixpoint update_each (bond_dim : nat) (new : list (option nat)) (svs : list (option T)) (ob : list nat) (os : list T) : res (list nat * list T) :=
    match new, svs, ob, os with
    | n :: new', s :: svs', b :: ob', v :: os' =>
        let* p := (match n, s with
                   | None, _ => Ok (b, v)
                   | Some _, None => Err AssertionError
                   | Some d, Some w => if list_eqb (shp w) [bond_dim] then Ok (d, w) else Err RuntimeError
                   end) in
        let* q := update_each bond_dim new' svs' ob' os' in
        Ok (fst p :: fst q, snd p :: snd q)
    | _, _, _, _ => Ok ([], [])
    end.
  Definition update_lists (m : ad_mps) (new : list (option nat)) (svs : list (option T)) : res (list nat * list T) :=
    let* _ := assert_ (List.length new =? List.length (a_bonds m)) in
    let* _ := assert_ (List.length new =? List.length svs) in
    update_each (m_bond (a_cfg m)) new svs (a_bonds m) (a_svs m).
  Definition with_reg (m : ad_mps) (g : region) : ad_mps := mkAd (a_cfg m) g (a_bonds m) (a_svs m).
  (** torchmps.py:453-494 [MPS.forward] and 734-764 [MergedLinearRegion.forward]: the result, the
      batch size remembered by the contractables, and the new state of the model (None when an
      exception left it in the middle of a flip) *)
  Definition ad_forward (m : ad_mps) (x : T) (g : gbs) : (res T * gbs) * option ad_mps :=
    let c := a_cfg m in
    match (let* x1 := route K (m_path c) x in mps_embed K c x1) with
    | Err e => ((Err e, g), Some m)
    | Ok x2 =>
        match region_step (a_reg m) (size 0 x2) with
        | Err e => ((Err e, g), None)
        | Ok (reg, info) =>
            match region_forward K (g_active reg) (m_periodic c) (m_parallel c) x2 g with
            | (Err e, g') => ((Err e, g'), Some (with_reg m reg))
            | (Ok y, g') =>
                match info with
                | None => ((Ok y, g'), Some (with_reg m reg))
                | Some (new, svs) =>
                    match update_lists m new svs with
                    | Err e => ((Err e, g'), None)
                    | Ok (b, s) => ((Ok y, g'), Some (mkAd c reg b s))
                    end
                end
            end
        end
    end.
  (** torchmps.py:547-570 [MPS.register_feature_map] *)
  Definition ad_register (m : ad_mps) (f : option (fmap K)) : res ad_mps :=
    let* c := mps_register K (a_cfg m) f in Ok (mkAd c (a_reg m) (a_bonds m) (a_svs m)).
End Unmerge.
