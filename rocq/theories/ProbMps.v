(** * ProbMps: model of torchmps/prob_mps.py (ProbMPS and ProbUnifMPS) *)
From Coq Require Import Reals.
From Verif Require Import Base Scalars Tensor Utils2 MpsBase Embeddings.

Section ProbMps.
  Variable K : numfield.
  Notation xt := (tensor (xnum K)).
  Notation xr := (tensor xreal).

  (** finite tensor entries *)
  Definition tfin (t : tensor K) : xt := tmap Fin t.
  Definition tin_fin (x : tin K) : tin (xnum K) :=
    match x with TLong t => TLong t | TFloat t => TFloat (tfin t) end.

  (** The attributes of a model object: prob_mps.py:124-146 (ProbMPS) and :350-372
      (ProbUnifMPS).  Parameter values are arbitrary (they are trained). *)
  Record pmps := mkP {
    pm_core : tensor K;                  (* core_tensors *)
    pm_edge : tensor K;                  (* edge_vecs *)
    pm_bias : option (tensor K);         (* bias_mat, present iff use_bias *)
    pm_emb : option (embedding K) }.     (* embedding *)
  (** parameter shapes fixed by the constructors, prob_mps.py:110-132, :336-358 *)
  Definition shapes_fixed (m : pmps) (seq_len input_dim bond_dim : nat) : Prop :=
    0 < seq_len /\ 0 < input_dim /\ 0 < bond_dim /\
    shp (pm_core m) = [seq_len; input_dim; bond_dim; bond_dim] /\
    shp (pm_edge m) = [2; bond_dim] /\
    match pm_bias m with None => True | Some b => shp b = [bond_dim; bond_dim] end.
  Definition shapes_unif (m : pmps) (input_dim bond_dim : nat) : Prop :=
    0 < input_dim /\ 0 < bond_dim /\
    shp (pm_core m) = [input_dim; bond_dim; bond_dim] /\
    shp (pm_edge m) = [2; bond_dim] /\
    match pm_bias m with None => True | Some b => shp b = [bond_dim; bond_dim] end.

  (** The embed_fun argument of the constructors *)
  Inductive embed_arg := ENone | EObj (e : embedding K) | EFun (f : efun K).
  (** prob_mps.py:138-146 and :364-372: setting up the embedding object *)
  Definition setup_embedding (input_dim : nat) (a : embed_arg) (dom : option domain)
    : res (option (embedding K)) :=
    match a with
    | ENone => Ok None
    | EObj e =>
        let* _ := (match es_dim K e with
                   | Some d => assert_ (d =? input_dim)
                   | None => Ok tt
                   end) in
        Ok (Some e)
    | EFun f =>
        let* d := (match dom with Some d => Ok d | None => Err AssertionError end) in
        let* e := fixed_embedding K f d in
        let* _ := assert_ (match es_dim K e with Some n => n =? input_dim | None => false end) in
        Ok (Some e)
    end.

  Definition with_emb (m : pmps) (e : embedding K) : pmps :=
    mkP (pm_core m) (pm_edge m) (pm_bias m) (Some e).
  (** prob_mps.py:170-172: apply the embedding if there is one *)
  Definition embed (m : pmps) (x : tin K) : pmps * res (tin K) :=
    match pm_emb m with
    | None => (m, Ok x)
    | Some e =>
        let (e', r) := emb_forward K e x in
        (with_emb m e', let* v := r in Ok (TFloat v))
    end.
  (** prob_mps.py:253: the lamb_mat attribute; missing before make_lambda has run *)
  Definition lamb_of (m : pmps) : res (option xt) :=
    match pm_emb m with
    | None => Ok None
    | Some e => match es_lamb K e with
                | Some l => Ok (Some l)
                | None => Err AttributeError
                end
    end.
  (** prob_mps.py:247-250: core + bias[None, None]; :450-453: core + bias[None] *)
  Definition biased (uniform : bool) (b : option (tensor K)) (t : xt) : res xt :=
    match b with
    | None => Ok t
    | Some b => tzip (xlift2 sadd) t (unsq_front (if uniform then 1 else 2) (tfin b))
    end.
  (** prob_mps.py:232-255 [ProbMPS.log_norm] *)
  Definition log_norm_fixed (m : pmps) : res xr :=
    let* core := biased false (pm_bias m) (tfin (pm_core m)) in
    let* lamb := lamb_of m in
    get_log_norm K core (tfin (pm_edge m)) None lamb.
  (** prob_mps.py:435-460 [ProbUnifMPS.log_norm] *)
  Definition log_norm_unif (m : pmps) (data_len : nat) : res xr :=
    let* core := biased true (pm_bias m) (tfin (pm_core m)) in
    let* lamb := lamb_of m in
    get_log_norm K core (tfin (pm_edge m)) (Some (Z.of_nat data_len)) lamb.
  (** prob_mps.py:174-193 / :402-421: the amplitudes and their log scales *)
  Definition amplitudes (uniform : bool) (m : pmps) (x : tin K) (slim par : bool)
    : res (xt * xr) :=
    if slim then
      match pm_bias m with
      | Some _ => Err ValueError
      | None => slim_eval_fun K (tin_fin x) (tfin (pm_core m)) (tfin (pm_edge m))
      end
    else
      let* mats := get_mat_slices K (tin_fin x) (tfin (pm_core m)) in
      let* mats := biased uniform (pm_bias m) mats in
      contract_matseq K (TOne mats) (Some (sel0 (tfin (pm_edge m)) 0))
        (Some (sel0 (tfin (pm_edge m)) 1)) par.
  (** prob_mps.py:195-204 / :424-433: checks, log |psi|, normalisation.
      [check] is the extra shape assertion of ProbUnifMPS (line 430). *)
  Definition finish (psi : xt * xr) (log_norm : res xr) (check : xr -> bool) : res xr :=
    let* ln := log_norm in
    let* _ := assert_ (tall xfinite ln) in
    let* _ := assert_ (tall xnfinite (fst psi)) in
    let* up := tadd (tlog (tabs K (fst psi))) (snd psi) in
    let* _ := assert_ (check up) in
    tzip (fun a b => xadd (xscale 2 a) (xopp b)) up ln.

  (** prob_mps.py:148-204 [ProbMPS.forward]: the model after the call (a trainable
      embedding refreshes its lambda matrix) and the log probabilities *)
  Definition forward_fixed (m : pmps) (x : tin K) (slim par : bool) : pmps * res xr :=
    let (m', ex) := embed m x in
    (m', let* x' := ex in
         let* psi := amplitudes false m' x' slim par in
         finish psi (log_norm_fixed m') (fun _ => true)).
  (** prob_mps.py:374-433 [ProbUnifMPS.forward] *)
  Definition forward_unif (m : pmps) (x : tin K) (slim par : bool) : pmps * res xr :=
    match tin_shp x with
    | batch :: seq_len :: _ =>
        let (m', ex) := embed m x in
        (m', let* x' := ex in
             let* psi := amplitudes true m' x' slim par in
             finish psi (log_norm_unif m' seq_len)
                    (fun up => list_eqb (shp up) [batch]))
    | _ => (m, Err ValueError)
    end.
  (** torch.mean of a tensor with one axis *)
  Definition tmean (t : xr) : xreal :=
    xdivc (bsum (S := xr_ops) (hd 0 (shp t)) (fun i => get t [i])) (INR (hd 0%nat (shp t))).
  (** prob_mps.py:206-230 [loss] (inherited by ProbUnifMPS) *)
  Definition loss_of (fw : pmps * res xr) : pmps * res xreal :=
    (fst fw, let* l := snd fw in Ok (xopp (tmean l))).
  Definition loss_fixed m x slim par := loss_of (forward_fixed m x slim par).
  Definition loss_unif m x slim par := loss_of (forward_unif m x slim par).
End ProbMps.
