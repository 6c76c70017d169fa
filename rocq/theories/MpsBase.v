(** * MpsBase: model of torchmps/mps_base.py.
    Tensor entries are exact real or complex numbers ([K]) extended by a
    non-finite value [Bad] (inf/nan); the log-scale registers are extended
    reals.  Rounding and overflow of floating point are not modelled. *)
From Coq Require Import Reals.
From Verif Require Import Base Scalars Tensor Utils2.

(** An input tensor of the probabilistic models: integer indices (dtype long)
    or floating-point vectors (already promoted to the core dtype, mps_base.py:87-88
    and :366-367). *)
Inductive tin (X : Type) := TLong (t : tensor Z) | TFloat (t : tensor X).
Arguments TLong {X}. Arguments TFloat {X}.
Definition tin_shp {X} (x : tin X) : list nat :=
  match x with TLong t => shp t | TFloat t => shp t end.

(** Python/torch index into an axis of size n: negative values wrap *)
Definition in_range (n : nat) (z : Z) : bool :=
  ((- Z.of_nat n <=? z) && (z <? Z.of_nat n))%Z.
Definition pyidx (n : nat) (z : Z) : nat :=
  if (z <? 0)%Z then Z.to_nat (z + Z.of_nat n) else Z.to_nat z.

(** advanced indexing core[ix] on the first axis *)
Definition gather0 {A} (t : tensor A) (ix : tensor Z) : res (tensor A) :=
  let n := hd 0 (shp t) in
  if tall (in_range n) ix then
    Ok (mkT (shp ix ++ tl (shp t))
       (fun i => get t (pyidx n (get ix (firstn (ndim ix) i)) :: skipn (ndim ix) i)))
  else Err IndexError.
(** advanced indexing core[arange(seq_len)[None], ix] with a 2-mode [ix] of shape
    (batch, seq_len) *)
Definition gather01 {A} (t : tensor A) (ix : tensor Z) : res (tensor A) :=
  match shp t with
  | n0 :: n1 :: r =>
      if forallb (fun i => (nth 1 i 0 <? n0) && in_range n1 (get ix i)) (all_idx (shp ix)) then
        Ok (mkT (shp ix ++ r)
           (fun i => get t (nth 1 i 0 :: pyidx n1 (get ix (firstn 2 i)) :: skipn 2 i)))
      else Err IndexError
  | _ => Err IndexError
  end.

Section MpsBase.
  Variable K : numfield.
  Notation xt := (tensor (xnum K)).
  Notation xr := (tensor xreal).
  Notation XK := (xn_ops K).

  Definition tabs (t : xt) : xr := tmap (xabs K) t.
  Definition tconj (t : xt) : xt := tmap (xlift1 (nconj K)) t.
  Definition tlog (t : xr) : xr := tmap xlog t.
  Definition tdivc (t : xr) (c : R) : xr := tmap (fun x => xdivc x c) t.
  Definition tadd (a b : xr) : res xr := tzip xadd a b.
  Definition tdivr (a : xt) (b : xr) : res xt := tzip (xdivr K) a b.

  (** mps_base.py:95-98 [slice_fun], applied to time step [t] of the transposed
      input.  Indexing with a floating-point tensor raises IndexError; einsum of
      an integer tensor with a floating-point core raises RuntimeError. *)
  Definition slim_slice (inps : tin (xnum K)) (core : xt) (vec_input : bool) : res xt :=
    if vec_input then
      match inps with
      | TFloat v => einsum (S := XK) "bi,ide->bde" [v; core]
      | TLong _ => Err RuntimeError
      end
    else
      match inps with
      | TLong ix => gather0 core ix
      | TFloat _ => Err IndexError
      end.
  Definition tin_sel0 (x : tin (xnum K)) (n : nat) : tin (xnum K) :=
    match x with TLong t => TLong (sel0 t n) | TFloat t => TFloat (sel0 t n) end.
  Definition tin_trans01 (x : tin (xnum K)) : tin (xnum K) :=
    match x with TLong t => TLong (trans01 t) | TFloat t => TFloat (trans01 t) end.
  (** mps_base.py:103-110, one iteration of the loop *)
  Definition slim_step (bond_dim : nat) (st : xr * xt) (mats : xt) : res (xr * xt) :=
    let (log_scale, vecs) := st in
    let* vecs := matmul (S := XK) vecs mats in
    let rescale := tdivc (sum1 (S := xr_ops) (tabs vecs)) (INR bond_dim) in
    let* log_scale := tadd log_scale (selE 0 (selE 0 (tlog rescale) 0) 0) in
    let* vecs := tdivr vecs rescale in
    Ok (log_scale, vecs).
  (** mps_base.py:45-115 [slim_eval_fun].  [.transpose(0, 1)] of an input with fewer
      than two modes raises IndexError. *)
  Definition slim_eval_fun (x : tin (xnum K)) (core bound : xt) : res (xt * xr) :=
    if List.length (tin_shp x) <? 2 then Err IndexError else
    let xT := tin_trans01 x in
    let seq_len := nth 0 (tin_shp xT) 0 in
    let batch := nth 1 (tin_shp xT) 0 in
    let bond_dim := dimE 0 (shp core) in
    let* _ := assert_ (ndim bound =? 2) in
    let nd := List.length (tin_shp xT) in
    let* _ := assert_ ((nd =? 2) || (nd =? 3)) in
    let* _ := assert_ ((ndim core =? 3) || (ndim core =? 4)) in
    let* _ := assert_ (nth 0 (shp bound) 0 =? 2) in
    let* _ := assert_ (dimE 0 (shp bound) =? dimE 0 (shp core)) in
    let uniform := ndim core =? 3 in
    let vec_input := nd =? 3 in
    let* _ := (if uniform then Ok tt else assert_ (nth 0 (shp core) 0 =? seq_len)) in
    let* _ := (if vec_input then assert_ (dimE 0 (tin_shp xT) =? dimE 2 (shp core)) else Ok tt) in
    let core_at := fun t => if uniform then core else sel0 core t in
    let vecs0 := unsq_front 2 (sel0 bound 0) in
    let* st := rfold (fun st t =>
        let* mats := slim_slice (tin_sel0 xT t) (core_at t) vec_input in
        slim_step bond_dim st mats)
      (tconst [batch] (XFin 0), vecs0) (seq 0 seq_len) in
    let (log_scale, vecs) := st in
    let* contraction := matmul (S := XK) (squeezeE 1 vecs) (unsqE 0 (sel0 bound 1)) in
    let* _ := assert_ (list_eqb (shp contraction) [batch; 1]) in
    Ok (squeezeE 0 contraction, log_scale).

  (** mps_base.py:280-297, one iteration of the while loop *)
  Definition par_step (bond_dim : nat) (st : xt * xr) : res (xt * xr) :=
    let (matrices, log_scale) := st in
    let n := dimE 2 (shp matrices) in
    let half_n := n / 2 in
    let floor_n := half_n * 2 in
    let even_mats := sliceE 2 half_n (fun p => 2 * p) matrices in
    let odd_mats := sliceE 2 half_n (fun p => 1 + 2 * p) matrices in
    let leftover := sliceE 2 (n - floor_n) (fun p => floor_n + p) matrices in
    let* prod := matmul (S := XK) even_mats odd_mats in
    let* matrices := cat2E 2 prod leftover in
    let rescales := tdivc (sum2 (S := xr_ops) (tabs matrices)) (INR bond_dim) in
    let* log_scale := tadd log_scale (sumE (S := xr_ops) 2 (tlog rescales)) in
    let* matrices := tdivr matrices rescales in
    Ok (matrices, log_scale).
  (** mps_base.py:280 the while loop; [fuel] bounds the number of iterations *)
  Fixpoint par_loop (fuel bond_dim : nat) (st : xt * xr) : res (xt * xr) :=
    if dimE 2 (shp (fst st)) <=? 1 then Ok st
    else match fuel with
         | 0 => Err OutOfFuel
         | S f => let* st := par_step bond_dim st in par_loop f bond_dim st
         end.
  (** identity matrix, torch.eye(n) *)
  Definition teye (n : nat) : xt :=
    mkT [n; n] (fun i => if nth 0 i 0 =? nth 1 i 0 then Fin s1 else Fin s0).
  (** mps_base.py:248-299 [mat_reduce_par] *)
  Definition mat_reduce_par (matrices : xt) : res (xt * xr) :=
    let* _ := assert_ (3 <=? ndim matrices) in
    let n_mats := dimE 2 (shp matrices) in
    let log_scale := tconst (droplast 3 (shp matrices) ++ [1; 1]) (XFin 0) in
    if n_mats =? 0 then
      let* l := batch_broadcast [teye (dimE 0 (shp matrices)); matrices] [2; 3] in
      match l with e :: _ => Ok (e, log_scale) | [] => Err ValueError end
    else if n_mats =? 1 then Ok (squeezeE 2 matrices, log_scale)
    else
      let* _ := assert_ (dimE 1 (shp matrices) =? dimE 0 (shp matrices)) in
      let* st := par_loop n_mats (dimE 0 (shp matrices)) (matrices, log_scale) in
      Ok (squeezeE 2 (fst st), snd st).

  (** mps_base.py:323-330, one iteration of the loop *)
  Definition seq_step (st : xt * xr) (mat : xt) : res (xt * xr) :=
    let (product, log_scale) := st in
    let* product := matmul (S := XK) product mat in
    let target_norm := sqrt (INR (dimE 1 (shp product) * dimE 0 (shp product))) in
    let rescale := tdivc (sum2 (S := xr_ops) (tabs product)) target_norm in
    let* log_scale := tadd log_scale (tlog rescale) in
    let* product := tdivr product rescale in
    Ok (product, log_scale).
  (** mps_base.py:302-334 [mat_reduce_seq] *)
  Definition mat_reduce_seq (mats : list xt) : res (xt * xr) :=
    match mats with
    | [] => Err IndexError
    | m0 :: _ =>
        let r2l := dimE 0 (shp (last mats m0)) <? dimE 1 (shp m0) in
        let mats := if r2l then map transE (rev mats) else mats in
        match mats with
        | [] => Err IndexError
        | p :: rest =>
            let* st := rfold seq_step (p, tconst (droplast 2 (shp p) ++ [1; 1]) (XFin 0)) rest in
            let (product, log_scale) := st in
            Ok (if r2l then transE product else product, log_scale)
        end
    end.

  Definition some_ {A} (o : option A) : bool := match o with Some _ => true | None => false end.
  Definition opt_list {A} (o : option A) : list A := match o with Some a => [a] | None => [] end.
  Definition opt_upd {A} (o : option A) (l : list A) : option A * list A :=
    match o, l with
    | Some _, a :: l' => (Some a, l')
    | o, l => (o, l)
    end.
  (** mps_base.py:187-203: broadcasting the batch axes of the matrices and the
      boundary vectors.  The four branches of the source differ only in which
      boundary vectors are present; a single stacked tensor counts as one
      operand with 3 non-batch axes. *)
  Definition bcast_inputs (lv rv : option xt) (m : tseq (xnum K))
    : res (option xt * option xt * tseq (xnum K)) :=
    let vecs := opt_list lv ++ opt_list rv in
    match m with
    | TOne t =>
        match vecs with
        | [] => Ok (lv, rv, m)                                     (* nothing to do *)
        | _ =>
            let* outs := batch_broadcast (vecs ++ [t])
                           (map (fun _ => 1) vecs ++ [3]) in       (* :193, :199 *)
            let (lv', outs) := opt_upd lv outs in
            let (rv', outs) := opt_upd rv outs in
            match outs with
            | [t'] => Ok (lv', rv', TOne t')
            | _ => Err ValueError
            end
        end
    | TMany l =>
        let* outs := batch_broadcast (vecs ++ l)
                       (map (fun _ => 1) vecs ++ map (fun _ => 2) l) in (* :188, :195, :202 *)
        let (lv', outs) := opt_upd lv outs in
        let (rv', outs) := opt_upd rv outs in
        Ok (lv', rv', TMany outs)
    end.
  (** mps_base.py:118-245 [contract_matseq] with log_format=True *)
  Definition contract_matseq (m : tseq (xnum K)) (lv rv : option xt) (parallel_eval : bool)
    : res (xt * xr) :=
    let* m := bundle_tensors m in
    let same_shape := match m with TOne _ => true | TMany _ => false end in
    let* _ := (match m with
               | TOne t => if ndim t <? 3 then Err IndexError else Ok tt  (* shape[-3] *)
               | TMany _ => Ok tt
               end) in
    let no_vecs := negb (some_ lv) && negb (some_ rv) in
    let use_parallel := same_shape && (parallel_eval || no_vecs) in
    let* br := bcast_inputs lv rv m in
    let '(lv', rv', m') := br in
    let* pl :=
      (match use_parallel, m' with
       | true, TOne t =>
           let* pl := mat_reduce_par t in
           let (product, log_scale) := pl in
           let* product := (match lv' with
                            | Some v => matmul (S := XK) (unsqE 1 v) product
                            | None => Ok product
                            end) in
           let* product := (match rv' with
                            | Some v => matmul (S := XK) product (unsqE 0 v)
                            | None => Ok product
                            end) in
           Ok (product, log_scale)
       | _, _ =>
           let mats := match m' with
                       | TOne t => map (selE 2 t) (seq 0 (dimE 2 (shp t)))
                       | TMany l => l
                       end in
           if no_vecs && (List.length mats =? 0) then Err ValueError
           else mat_reduce_seq (map (unsqE 1) (opt_list lv') ++ mats
                                ++ map (unsqE 0) (opt_list rv'))
       end) in
    let (product, log_scale) := pl in
    let sq1 := fun (b : bool) k => if b then squeezeE (A := xnum K) k else (fun t => t) in
    let sq2 := fun (b : bool) k => if b then squeezeE (A := xreal) k else (fun t => t) in
    let product := sq1 (some_ rv) 0 (sq1 (some_ lv) 1 product) in
    let log_scale := sq2 (some_ rv) 0 (sq2 (some_ lv) 1 log_scale) in
    Ok (product, log_scale).
  (** mps_base.py:245: log_format=False *)
  Definition contract_matseq_value (m : tseq (xnum K)) (lv rv : option xt) (parallel_eval : bool)
    : res xt :=
    let* pl := contract_matseq m lv rv parallel_eval in
    tzip (xmulr K) (fst pl) (tmap xexp (snd pl)).

  (** mps_base.py:337-381 [get_mat_slices].  The complex-index workaround CIndex
      (utils2.py:208-219) rebuilds re + i*im entry by entry, which is the same
      entry in exact arithmetic, so it is modelled as plain indexing. *)
  Definition get_mat_slices (x : tin (xnum K)) (core : xt) : res xt :=
    let nd := List.length (tin_shp x) in
    let* _ := assert_ ((nd =? 2) || (nd =? 3)) in
    let* _ := assert_ ((ndim core =? 3) || (ndim core =? 4)) in
    let indexing := nd =? 2 in
    let uniform := ndim core =? 3 in
    match indexing, x with
    | true, TLong ix => if uniform then gather0 core ix else gather01 core ix
    | true, TFloat _ => Err IndexError
    | false, TFloat v =>
        if uniform then einsum (S := XK) "bti,ide->btde" [v; core]
        else einsum (S := XK) "bti,tide->btde" [v; core]
    | false, TLong _ => Err RuntimeError
    end.

  (** mps_base.py:439-447: the transfer operator for the formats of lamb_mat *)
  Definition t_op (lamb : option xt) (dm ct : xt) : res xt :=
    match lamb with
    | None => einsum (S := XK) "ilr,lp,ipq->rq" [ct; dm; tconj ct]
    | Some l =>
        match ndim l with
        | 0 => let* e := einsum (S := XK) "ilr,lp,ipq->rq" [ct; dm; tconj ct] in
               tzip (xlift2 smul) l e
        | 1 => einsum (S := XK) "i,ilr,lp,ipq->rq" [l; ct; dm; tconj ct]
        | _ => einsum (S := XK) "ij,ilr,lp,jpq->rq" [l; ct; dm; tconj ct]
        end
    end.
  (** mps_base.py:450-458 [transfer_op] (fixed length branch) *)
  Definition transfer_op (lamb : option xt) (st : xt * xr) (core : xt) : res (xt * xr) :=
    let (dm, l_norm) := st in
    let* dm := t_op lamb dm core in
    let* trace := hermitian_trace K dm in
    let* l_norm := tadd l_norm (tlog trace) in
    let* dm := tdivr dm trace in
    Ok (dm, l_norm).
  (** mps_base.py:384-474 [get_log_norm].  The arbitrary-length branch raises
      NotImplementedError; a length that is negative but not -1 gives an empty
      tuple of cores, as in Python. *)
  Definition get_log_norm (core bvecs : xt) (length : option Z) (lamb : option xt) : res xr :=
    let uniform := ndim core =? 3 in
    let* _ := assert_ ((ndim core =? 3) || (ndim core =? 4)) in
    let* _ := assert_ (dimE 0 (shp bvecs) =? dimE 0 (shp core)) in
    let* _ := assert_ (uniform || match length with
                                  | None => true
                                  | Some l => (l =? Z.of_nat (nth 0 (shp core) 0%nat))%Z
                                  end) in
    let* _ := assert_ (match lamb with None => true | Some l => ndim l <=? 2 end) in
    let* _ := assert_ (negb (uniform && negb (some_ length))) in
    let len := match length with Some l => l | None => 0%Z end in
    let fixed_len := negb uniform || negb (len =? -1)%Z in
    let* _ := (if nth 0 (shp bvecs) 0 =? 2 then Ok tt else Err ValueError) in
    let left_vec := sel0 bvecs 0 in
    let r_vec := sel0 bvecs 1 in
    let* dens := matmul (S := XK) (unsqE 0 left_vec) (tconj (unsq_front 1 left_vec)) in
    if fixed_len then
      let cores := if uniform then repeat core (Z.to_nat len)
                   else map (sel0 core) (seq 0 (nth 0 (shp core) 0)) in
      let* st := rfold (transfer_op lamb) (dens, tconst [] (XFin 0)) cores in
      let (dens, log_norm) := st in
      let* corr := einsum (S := XK) "r,rq,q->" [r_vec; dens; tconj r_vec] in
      let* corr := realify K corr in
      tadd log_norm (tlog corr)
    else Err NotImplementedError.
End MpsBase.

(** mps_base.py:502-514 / :540-552: the shape checks shared by both initialisers *)
Definition init_shape_check (shape : list nat) : res unit :=
  let* _ := assert_ (3 <=? List.length shape) in
  if negb (dimE 1 shape =? dimE 0 shape) then
    (if negb (fold_right Nat.mul 1 (droplast 3 shape) =? 1) then Err ValueError else Ok tt)
  else Ok tt.
(** mps_base.py:486-522 [near_eye_init]; [z] is the torch.randn sample and [u] the
    torch.rand sample used by phaseify.  Real tensors are represented with zero
    imaginary parts. *)
Definition near_eye_init (shape : list nat) (is_complex : bool) (noise : R)
  (z : tensor R) (u : tensor R) : res (tensor cplx) :=
  let* _ := init_shape_check shape in
  let eye := mkT (lastn 2 shape)
               (fun i => if nth 0 i 0 =? nth 1 i 0 then c_ofR 1 else c_ofR 0) in
  let* eye_core := batch_to eye (droplast 2 shape) 2 in
  let noise' := (noise / sqrt (INR (dimE 1 shape * dimE 0 shape)))%R in
  let delta := mkT shape (fun i => c_ofR (noise' * get z i)) in
  let delta := if is_complex then phaseify delta u else delta in
  tzip c_add eye_core delta.
(** mps_base.py:525-559 [normal_init]: [rel_std] is not used by the source *)
Definition normal_init (shape : list nat) (is_complex : bool) (rel_std : R)
  (z : tensor R) (u : tensor R) : res (tensor cplx) :=
  let* _ := init_shape_check shape in
  let* _ := (if dimE 0 shape =? 0 then Err ZeroDivisionError else Ok tt) in
  let std := (1 / INR (dimE 0 shape))%R in
  let core := mkT shape (fun i => c_ofR (std * get z i)) in
  Ok (if is_complex then phaseify core u else core).
