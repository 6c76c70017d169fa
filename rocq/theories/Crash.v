(** * Crash: the state that an exception in the middle of a flip leaves behind
    (torchmps.py:453-494 [MPS.forward], 734-764 [MergedLinearRegion.forward], 766-914 [_merge], [_unmerge]) *)
From Coq Require Import Reals.
From Verif Require Import Base Scalars Tensor Contractables Utils TorchMps Adaptive AdSpec.

Section Crash.
  Notation K := R_cring.
  Notation T := (tensor R_ops).
  Notation mod_ := (module R_cring).
  Variable svd : T -> T * T * T.

  (** torchmps.py:845-849: the loop assigns the tensors in order; the ones before the first that has another shape
      have been overwritten.  Lists of different length: the assertion in 845 comes first. *)
  Fixpoint stored_each (old new : list mod_) : list mod_ :=
    match old, new with
    | o :: old', n :: new' =>
        if list_eqb (shp (mod_tensor o)) (shp (mod_tensor n)) then set_tensor o (mod_tensor n) :: stored_each old' new' else o :: old'
    | _, _ => old
    end.
  Definition stored (old new : list mod_) : list mod_ := if List.length old =? List.length new then stored_each old new else old.

  (** torchmps.py:748-753.  An exception in _unmerge comes before anything has been assigned, except that a core that
      is 0 makes NaN of all cores and no exception at all (None: not followed further).  An exception in _merge
      comes after the cores of the old list that were not split have been rescaled in place and after self.offset was
      switched, and before input_counter is reduced.  self.module_list is then a list of unmerged cores; the next
      call does not use it, because the counter is still at the threshold and _unmerge starts from
      module_list_0 or module_list_1. *)
  Definition flip_crash (g : region) : option region :=
    match unmerge_mods svd (g_cutoff g) (g_active g) with
    | Err NotANumber => None
    | Err _ => Some g
    | Ok (ms, _, _) =>
        let o := (g_offset g + 1) mod 2 in
        let old := stale svd (g_cutoff g) (g_active g) in
        let other := match merge_mods K o ms with Ok new => stored (g_list g o) new | Err _ => g_list g o end in
        Some (if o =? 0 then mkReg other old o (g_counter g) (g_threshold g) (g_cutoff g)
              else mkReg old other o (g_counter g) (g_threshold g) (g_cutoff g))
    end.
  (** torchmps.py:483-492: the two assertions come first; in the loop an entry of bond_list is assigned before sv_list *)
  Fixpoint updated_each (bond_dim : nat) (new : list (option nat)) (svs : list (option T)) (ob : list nat) (os : list T) : list nat * list T :=
    match new, svs, ob, os with
    | n :: new', s :: svs', b :: ob', v :: os' =>
        match n, s with
        | None, _ => let q := updated_each bond_dim new' svs' ob' os' in (b :: fst q, v :: snd q)
        | Some _, None => (ob, os)
        | Some d, Some w =>
            if list_eqb (shp w) [bond_dim] then let q := updated_each bond_dim new' svs' ob' os' in (d :: fst q, w :: snd q)
            else (d :: ob', v :: os')
        end
    | _, _, _, _ => (ob, os)
    end.
  Definition updated (m : ad_mps) (new : list (option nat)) (svs : list (option T)) : list nat * list T :=
    if (List.length new =? List.length (a_bonds m)) && (List.length new =? List.length svs)
    then updated_each (m_bond (a_cfg m)) new svs (a_bonds m) (a_svs m) else (a_bonds m, a_svs m).

  (** the state after a call for which [ad_forward] gives no state *)
  Definition ad_crash (m : ad_mps) (x : tensor K) (g : gbs) : option ad_mps :=
    match embedded_input m x with
    | Err _ => None
    | Ok e =>
        match region_step svd (a_reg m) (size 0 e) with
        | Err _ => option_map (with_reg m) (flip_crash (a_reg m))
        | Ok (reg, Some (new, svs)) => let q := updated m new svs in Some (mkAd (a_cfg m) reg (fst q) (snd q))
        | Ok (_, None) => None
        end
    end.
  (** a call whose exception, if any, is caught: the result, the batch size remembered by the contractables, and the
      state of the model (None: parameters that are NaN) *)
  Definition ad_call (m : ad_mps) (x : tensor K) (g : gbs) : (res (tensor K) * gbs) * option ad_mps :=
    match ad_forward svd m x g with
    | (r, Some m') => (r, Some m')
    | (r, None) => (r, ad_crash m x g)
    end.

  (** histories in which exceptions are caught: training steps, calls with any result, registration of feature maps *)
  Inductive step : ad_mps -> ad_mps -> Prop :=
  | Step_train m l0 l1 : Forall2 retrained (g_list0 (a_reg m)) l0 -> Forall2 retrained (g_list1 (a_reg m)) l1 ->
      step m (mkAd (a_cfg m) (mkReg l0 l1 (g_offset (a_reg m)) (g_counter (a_reg m)) (g_threshold (a_reg m)) (g_cutoff (a_reg m))) (a_bonds m) (a_svs m))
  | Step_call m x g r m' : ad_call m x g = (r, Some m') -> step m m'
  | Step_register m f m' : ad_register m f = Ok m' -> step m m'.
  Inductive history (m0 : ad_mps) : ad_mps -> Prop :=
  | History_0 : history m0 m0
  | History_S m m' : history m0 m -> step m m' -> history m0 m'.
End Crash.
