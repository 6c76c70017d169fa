(** * Embeddings: model of torchmps/embeddings.py *)
From Coq Require Import Reals.
From Verif Require Import Base Scalars Tensor Utils2 MpsBase.

(** embeddings.py:33-65 the attributes of a [DataDomain] *)
Record domain := mkDom { dom_cont : bool; dom_max : R; dom_min : option R }.
(** embeddings.py:51-65 [DataDomain.__init__]; comparing a number with None raises
    TypeError.  For discrete domains min_val is not stored. *)
Definition data_domain (continuous : bool) (max_val : R) (min_val : option R) : res domain :=
  if continuous then
    match min_val with
    | None => Err TypeError
    | Some mn =>
        let* _ := assert_ (if Rlt_dec mn max_val then true else false) in
        Ok (mkDom true max_val (Some mn))
    end
  else
    let* _ := assert_ (if Rle_dec 0 max_val then true else false) in
    Ok (mkDom false max_val None).

(** torch.linspace(a, b, steps=n) *)
Definition linspace (a b : R) (n : nat) : tensor R :=
  mkT [n] (fun i => (a + INR (hd 0%nat i) * ((b - a) / INR (n - 1)))%R).
(** number of elements of torch.arange(r) for r >= 0: ceil(r) *)
Definition arange_len (r : R) : nat := Z.to_nat (- rfloor (- r)).

Section Emb.
  Variable K : numfield.
  (** A user-supplied embedding function: maps a tensor to a tensor. *)
  Definition efun := tin K -> tensor K.

  (** torch.trapz(y, x, dim=0) for y of shape (n, d, d) and x of shape (n,) *)
  Definition trapz0 (y : tensor K) (x : tensor R) : tensor K :=
    mkT (tl (shp y)) (fun i =>
      bsum (hd 0 (shp y) - 1) (fun k =>
        smul (nofR K ((get x [S k] - get x [k]) / 2)%R)
             (sadd (get y (k :: i)) (get y (S k :: i))))).
  (** torch.allclose(a, b) of two finite tensors with the default tolerances
      rtol=1e-5, atol=1e-8 (first operand may be 0-mode and broadcasts) *)
  Definition close (x y : K) : bool :=
    if Rle_dec (nabs K (rsub x y)) (/ 100000000 + / 100000 * nabs K y)
    then true else false.
  Definition allclose (a b : tensor K) : bool :=
    match tzip close a b with Ok t => tall (fun b => b) t | Err _ => false end.
  Definition diag_of (t : tensor K) : tensor K :=
    mkT [hd 0 (shp t)] (fun i => get t [hd 0 i; hd 0 i]).
  Definition diag_mat (t : tensor K) : tensor K :=
    mkT [hd 0 (shp t); hd 0 (shp t)]
        (fun i => if nth 0 i 0 =? nth 1 i 0 then get t [nth 0 i 0] else s0).
  (** mean of a vector; the mean of an empty tensor is NaN *)
  Definition mean_of (t : tensor K) : xnum K :=
    xdivr K (Fin (bsum (hd 0 (shp t)) (fun i => get t [i]))) (XFin (INR (hd 0%nat (shp t)))).
  (** embeddings.py:129-135 / :202-208: use the diagonal, or its mean, when they are
      close to the full matrix *)
  Definition simplify_lamb (lamb : tensor K) : tensor (xnum K) :=
    if allclose (diag_mat (diag_of lamb)) lamb then
      let dg := diag_of lamb in
      match mean_of dg with
      | Fin m => if allclose (tconst [] m) dg then tconst [] (Fin m) else tmap Fin dg
      | Bad => (* empty diagonal: allclose of empty tensors holds *) tconst [] Bad
      end
    else tmap Fin lamb.
  (** embeddings.py:95-135 and :167-208 [make_lambda] (identical code in both classes):
      returns (lamb_mat, emb_dim).  [num_points] is 1000 at every call. *)
  Definition raw_lambda (num_points : nat) (f : efun) (dom : domain) : res (tensor K) :=
    if dom_cont dom then
      let mn := match dom_min dom with Some m => m | None => 0%R end in
      let points := linspace mn (dom_max dom) num_points in
      let emb := f (TFloat (tmap (nofR K) points)) in
      let* _ := assert_ (ndim emb =? 2) in
      let* _ := assert_ (nth 0 (shp emb) 0 =? num_points) in
      let* mats := einsum (S := K) "bi,bj->bij" [emb; tmap (nconj K) emb] in
      Ok (trapz0 mats points)
    else
      let n := arange_len (dom_max dom) in
      let points := mkT [n] (fun i => Z.of_nat (hd 0 i)) in
      let emb := f (TLong points) in
      let* _ := assert_ (ndim emb =? 2) in
      let* _ := assert_ (if Req_EM_T (INR (nth 0 (shp emb) 0)) (dom_max dom) then true else false) in
      let* mats := einsum (S := K) "bi,bj->bij" [emb; tmap (nconj K) emb] in
      Ok (sum0 (S := K) mats).
  Definition make_lambda (num_points : nat) (f : efun) (dom : domain)
    : res (tensor (xnum K) * nat) :=
    let* raw := raw_lambda num_points f dom in
    let* _ := assert_ (ndim raw =? 2) in
    let* _ := assert_ (nth 0 (shp raw) 0 =? nth 1 (shp raw) 0) in
    Ok (simplify_lamb raw, nth 1 (shp raw) 0).

  (** The attributes of a FixedEmbedding / TrainableEmbedding object.  [es_lamb]
      and [es_dim] are absent until [make_lambda] has run. *)
  Record embedding := mkEmb {
    es_trainable : bool;
    es_fun : efun;
    es_dom : domain;
    es_lamb : option (tensor (xnum K));
    es_dim : option nat }.
  Definition num_points_default : nat := 1000.
  (** embeddings.py:158-165 [FixedEmbedding.__init__] *)
  Definition fixed_embedding (f : efun) (dom : domain) : res embedding :=
    let* ld := make_lambda num_points_default f dom in
    Ok (mkEmb false f dom (Some (fst ld)) (Some (snd ld))).
  (** embeddings.py:85-93 [TrainableEmbedding.__init__]: make_lambda is not called.
      [f] is the composite x |-> emb_fun(x[..., None]) of line 92. *)
  Definition trainable_embedding (f : efun) (dom : domain) : embedding :=
    mkEmb true f dom None None.
  (** embeddings.py:137-142 and :210-214 [forward]: returns the object after the call
      and the embedded data.  (When make_lambda raises, the object is returned
      unchanged: the assignments to num_points and emb_dim that precede the
      failing assertion are not modelled.) *)
  Definition emb_forward (e : embedding) (x : tin K) : embedding * res (tensor K) :=
    if es_trainable e then
      match make_lambda num_points_default (es_fun e) (es_dom e) with
      | Ok ld => (mkEmb true (es_fun e) (es_dom e) (Some (fst ld)) (Some (snd ld)),
                  Ok (es_fun e x))
      | Err er => (e, Err er)
      end
    else (e, Ok (es_fun e x)).

  (** embeddings.py:220-227 [onehot_embed]; scatter_ raises RuntimeError on an index
      outside 0..emb_dim-1 *)
  Definition onehot_embed (t : tensor Z) (emb_dim : nat) : res (tensor K) :=
    if tall (fun z => (0 <=? z) && (z <? Z.of_nat emb_dim))%Z t then
      Ok (mkT (shp t ++ [emb_dim])
         (fun i => if (get t (droplast 1 i) =? Z.of_nat (last i 0%nat))%Z then s1 else s0))
    else Err RuntimeError.
End Emb.

(** embeddings.py:230-257 [trig_embed]; scipy's binom(n, k) is the binomial
    coefficient [Binomial.C]; torch.stack of an empty list raises *)
Definition trig_comp (emb_dim s : nat) (x : R) : R :=
  (cos (x * PI / 2) ^ (emb_dim - s - 1) * sin (x * PI / 2) ^ s
   * sqrt (Binomial.C (emb_dim - 1) s))%R.
Definition trig_embed (data : tensor R) (emb_dim : nat) : res (tensor R) :=
  if emb_dim =? 0 then Err RuntimeError
  else
    let out := mkT (shp data ++ [emb_dim])
                   (fun i => trig_comp emb_dim (last i 0%nat) (get data (droplast 1 i))) in
    let* _ := assert_ (list_eqb (shp out) (shp data ++ [emb_dim])) in
    Ok out.

(** embeddings.py:277-282: the layers of the MLP *)
Inductive layer := Linear (d_in d_out : Z) | Sigmoid.
(** hidden_dims: an int or a list of ints *)
Inductive hidden := HInt (h : Z) | HList (l : list Z).
(** embeddings.py:260-287 [init_mlp_embed]: the nn.Sequential that is wrapped in a
    TrainableEmbedding (over [unit_interval] when no domain is given, line 217) *)
Definition init_mlp_layers (output_dim num_layers : Z) (hd : hidden) : res (list layer) :=
  let hs := match hd with
            | HInt h => repeat h (Z.to_nat (num_layers - 1))
            | HList l => l
            end in
  let* _ := assert_ (Z.of_nat (List.length hs) =? num_layers - 1)%Z in
  let all_dims := [1%Z] ++ hs ++ [output_dim] in
  Ok (flat_map (fun i => [Linear (nth i all_dims 0%Z) (nth (S i) all_dims 0%Z); Sigmoid])
       (seq 0 (Z.to_nat num_layers))).
(** embeddings.py:217, :285-286 *)
Definition init_mlp_domain (d : option domain) : domain :=
  match d with Some d => d | None => mkDom true 1 (Some 0%R) end.
