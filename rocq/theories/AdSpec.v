(** * AdSpec: vocabulary for the properties of the adaptive mode *)
From Coq Require Import Reals.
From Verif Require Import Base Scalars Tensor Contractables Utils UtilsSpec SvdProofs P_Svd TorchMps Adaptive.

(** A merged core holds two neighbouring cores: two input cores, or the output core and the
    input core on its left or on its right. *)
Inductive pair_type := TwoInputs | InputOutput | OutputInput.
Definition axes (p : pair_type) : list ascii := chars (match p with TwoInputs => "lrij" | _ => "olri" end).
(** the axes of the two factors that svd_flex returns, in the order it returns them *)
Definition axes1 (p : pair_type) : list ascii := chars (match p with TwoInputs => "lui" | InputOutput => "our" | OutputInput => "olu" end).
Definition axes2 (p : pair_type) : list ascii := chars (match p with TwoInputs => "urj" | InputOutput => "lui" | OutputInput => "uri" end).
Definition split_string (p : pair_type) : string :=
  match p with TwoInputs => "lrij->lui,urj" | InputOutput => "olri->our,lui" | OutputInput => "olri->olu,uri" end.

Section AdSpec.
  Notation T := (tensor R_ops).
  Notation mod_ := (module R_cring).
  Variable svd : T -> T * T * T.
  (** bond dimension, feature dimension, output dimension *)
  Variables D F O : nat.
  Definition sizes (c : ascii) : nat :=
    if (Ascii.eqb c "l" || Ascii.eqb c "r")%bool then D else if (Ascii.eqb c "i" || Ascii.eqb c "j")%bool then F else if Ascii.eqb c "o" then O else 0.
  (** the number of singular values *)
  Definition nsv (p : pair_type) : nat := match p with TwoInputs => D * F | _ => Nat.min (O * D) (D * F) end.
  (** the two cores that start at core number s, if they are merged *)
  Fixpoint pair_at (mods : list mod_) (s : nat) : option (pair_type * T) :=
    match mods with
    | [] => None
    | m :: r =>
        if s <? mod_core_len m then
          match m with
          | MergedInput t => if s mod 2 =? 0 then Some (TwoInputs, sel0 t (s / 2)) else None
          | MergedOutput t lo => if s =? 0 then Some (if lo then OutputInput else InputOutput, t) else None
          | _ => None
          end
        else pair_at r (s - mod_core_len m)
    end.
  (** torch.svd returns a singular value decomposition of (the matrix of) the pair, with singular values S *)
  Definition spectrum (p : pair_type) (t S : T) : Prop :=
    exists U V, svd_call svd t sizes (split_string p) (axes p) (axes1 p) (axes2 p) "u" U S V.
  Definition not_zero (t : T) : Prop := exists idx, valid (shp t) idx /\ get t idx <> 0%R.
  (** Every pair has a singular value that is not cut off, every core that is not merged is not zero. *)
  Definition healthy (cutoff : R) (mods : list mod_) : Prop :=
    (forall s p t, pair_at mods s = Some (p, t) -> exists S, spectrum p t S /\ (cutoff <= get S [0%nat])%R) /\
    (forall m t, In m mods -> m = InputSite t \/ m = OutputSite t -> not_zero t).
  (** Only the D largest singular values can be kept, and of these only those not below the cutoff:
      all others are zero. *)
  Definition lossless (cutoff : R) (mods : list mod_) : Prop :=
    forall s p t S, pair_at mods s = Some (p, t) -> spectrum p t S ->
      forall k, k < nsv p -> D <= k \/ (get S [k] < cutoff)%R -> get S [k] = 0%R.
  (** the labels of the rows and of the columns of the matrix of a pair *)
  Definition row_axes (p : pair_type) : list ascii := chars (match p with TwoInputs => "li" | InputOutput => "or" | OutputInput => "ol" end).
  Definition col_axes (p : pair_type) : list ascii := chars (match p with TwoInputs => "rj" | InputOutput => "li" | OutputInput => "ri" end).
  (** [t'] is the pair [t] without the singular values that cannot be kept: the sum of the leading singular triples,
      as many of the first D as are not below the cutoff *)
  Definition truncated (cutoff : R) (p : pair_type) (t t' : T) : Prop :=
    exists U S V, svd_call svd t sizes (split_string p) (axes p) (axes1 p) (axes2 p) "u" U S V /\ shp t' = shp t /\
      forall sg, within_sizes sizes sg (axes p) ->
        get t' (map sg (axes p)) = bsum (S := R_ops) (count_ge cutoff (fun k => get S [k]) (Nat.min D (nsv p)))
          (fun k => (get U [position (map sizes (row_axes p)) (map sg (row_axes p)); k] * get S [k] *
                     get V [position (map sizes (col_axes p)) (map sg (col_axes p)); k])%R).
  (** the same module with its pairs truncated; single cores are as they were *)
  Definition truncated_mod (cutoff : R) (a b : mod_) : Prop :=
    match a, b with
    | OutputSite t, OutputSite t' | InputSite t, InputSite t' => t = t'
    | MergedInput t, MergedInput t' => shp t' = shp t /\ forall s, s < size 0 t -> truncated cutoff TwoInputs (sel0 t s) (sel0 t' s)
    | MergedOutput t lo, MergedOutput t' lo' => lo = lo' /\ truncated cutoff (if lo then OutputInput else InputOutput) t t'
    | _, _ => False
    end.
End AdSpec.

Section History.
  Notation T := (tensor R_ops).
  Notation mod_ := (module R_cring).
  Variable svd : T -> T * T * T.
  (** an optimizer gives the tensor of a module new values *)
  Inductive retrained : mod_ -> mod_ -> Prop :=
  | RT_out t t' : shp t = shp t' -> retrained (OutputSite t) (OutputSite t')
  | RT_in t t' : shp t = shp t' -> retrained (InputSite t) (InputSite t')
  | RT_min t t' : shp t = shp t' -> retrained (MergedInput t) (MergedInput t')
  | RT_mout t t' lo : shp t = shp t' -> retrained (MergedOutput t lo) (MergedOutput t' lo).
  (** what can happen to an adaptive model between two observations: training steps, forward calls
      (with any input and any batch size remembered by the contractables; also calls that raise
      an exception, unless it is in the middle of a flip), registration of a feature map *)
  Inductive event : ad_mps -> ad_mps -> Prop :=
  | Ev_train m l0 l1 : Forall2 retrained (g_list0 (a_reg m)) l0 -> Forall2 retrained (g_list1 (a_reg m)) l1 ->
      event m (mkAd (a_cfg m) (mkReg l0 l1 (g_offset (a_reg m)) (g_counter (a_reg m)) (g_threshold (a_reg m)) (g_cutoff (a_reg m))) (a_bonds m) (a_svs m))
  | Ev_call m x g r m' : ad_forward svd m x g = (r, Some m') -> event m m'
  | Ev_register m f m' : ad_register m f = Ok m' -> event m m'.
  Inductive after (m0 : ad_mps) : ad_mps -> Prop :=
  | After_0 : after m0 m0
  | After_S m m' : after m0 m -> event m m' -> after m0 m'.
  (** a module keeps its values, or it is a single core that was multiplied by a positive factor *)
  Definition rescaled (a b : mod_) : Prop :=
    a = b \/ exists (t t' : tensor R_cring) c, (a = InputSite t /\ b = InputSite t' \/ a = OutputSite t /\ b = OutputSite t') /\ (0 < c)%R /\
      shp t' = shp t /\ forall i, get t' i = (get t i * c)%R.
  (** the input of a call after routing and embedding, [batch, input_dim, feature_dim] *)
  Definition embedded_input (m : ad_mps) (x : tensor R_cring) : res (tensor R_cring) :=
    let* x1 := route R_cring (m_path (a_cfg m)) x in mps_embed R_cring (a_cfg m) x1.
  (** the next call flips the merge state *)
  Definition flip_due (m : ad_mps) : Prop := (g_threshold (a_reg m) <= g_counter (a_reg m))%Z.
  Definition offset (m : ad_mps) : nat := g_offset (a_reg m).
  (** a history in which [seen] inputs were given to the model and the active list was switched [flips] times *)
  Inductive run (m0 : ad_mps) : nat -> nat -> ad_mps -> Prop :=
  | Run_0 : run m0 0 0 m0
  | Run_call seen flips m x e g r m' : run m0 seen flips m -> embedded_input m x = Ok e -> ad_forward svd m x g = (r, Some m') ->
      run m0 (seen + size 0 e) (if offset m' =? offset m then flips else flips + 1) m'
  | Run_rejected seen flips m x e g r m' : run m0 seen flips m -> embedded_input m x = Err e -> ad_forward svd m x g = (r, Some m') ->
      run m0 seen flips m'
  | Run_train seen flips m l0 l1 : run m0 seen flips m -> Forall2 retrained (g_list0 (a_reg m)) l0 -> Forall2 retrained (g_list1 (a_reg m)) l1 ->
      run m0 seen flips (mkAd (a_cfg m) (mkReg l0 l1 (g_offset (a_reg m)) (g_counter (a_reg m)) (g_threshold (a_reg m)) (g_cutoff (a_reg m))) (a_bonds m) (a_svs m))
  | Run_register seen flips m f m' : run m0 seen flips m -> ad_register m f = Ok m' -> run m0 seen flips m'.
End History.
