(** * Tensor: a model of the torch primitives the code uses.
    A tensor is a shape and an indexing function; only indices that are valid
    for the shape are meaningful.  Every primitive follows the PyTorch
    documentation (broadcasting, matmul, expand, squeeze, basic and advanced
    indexing, cat, stack, einsum).  The scalar type is abstract ([sops]), so the
    same primitives run over integers (examples), reals, complex numbers and
    IEEE-like values.  Torch itself is NOT modelled further (no strides, dtypes,
    devices, autograd, in-place aliasing). *)
From Verif Require Import Base Scalars.

Record tensor (A : Type) := mkT { shp : list nat; get : list nat -> A }.
Arguments mkT {A}. Arguments shp {A}. Arguments get {A}.

Definition ndim {A} (t : tensor A) : nat := List.length (shp t).
Definition valid (sh idx : list nat) : Prop := Forall2 lt idx sh.
Definition teq {A} (t u : tensor A) : Prop :=
  shp t = shp u /\ forall i, valid (shp t) i -> get t i = get u i.

(** All valid indices of a shape, row-major. *)
Fixpoint all_idx (sh : list nat) : list (list nat) :=
  match sh with
  | [] => [[]]
  | n :: r => flat_map (fun i => map (cons i) (all_idx r)) (seq 0 n)
  end.
Definition tall {A} (p : A -> bool) (t : tensor A) : bool :=
  forallb (fun i => p (get t i)) (all_idx (shp t)).

(** ** NumPy/torch broadcasting of shapes *)
Definition bdim (a b : nat) : option nat :=
  if a =? b then Some a else if a =? 1 then Some b else if b =? 1 then Some a else None.
Fixpoint bcast_rev (r1 r2 : list nat) : option (list nat) :=
  match r1, r2 with
  | [], r => Some r
  | r, [] => Some r
  | a :: r1', b :: r2' =>
      match bdim a b, bcast_rev r1' r2' with
      | Some c, Some r => Some (c :: r)
      | _, _ => None
      end
  end.
Definition bcast (s1 s2 : list nat) : option (list nat) :=
  option_map (@rev nat) (bcast_rev (rev s1) (rev s2)).

Fixpoint map2 {A B C} (f : A -> B -> C) (l : list A) (m : list B) : list C :=
  match l, m with
  | x :: l', y :: m' => f x y :: map2 f l' m'
  | _, _ => []
  end.
(** index along a size-[d] axis that may have been broadcast *)
Definition bidx (d i : nat) : nat := if d =? 1 then 0 else i.
(** index into a tensor of shape [sh] read at a broadcast index *)
Definition bproj (sh idx : list nat) : list nat :=
  map2 bidx sh (lastn (List.length sh) idx).

(** ** Elementwise operations *)
Definition tmap {A B} (f : A -> B) (t : tensor A) : tensor B :=
  mkT (shp t) (fun i => f (get t i)).
Definition tzip {A B C} (f : A -> B -> C) (a : tensor A) (b : tensor B) : res (tensor C) :=
  match bcast (shp a) (shp b) with
  | Some s => Ok (mkT s (fun i => f (get a (bproj (shp a) i)) (get b (bproj (shp b) i))))
  | None => Err RuntimeError
  end.
Definition tconst {A} (sh : list nat) (a : A) : tensor A := mkT sh (fun _ => a).

(** ** Shape manipulation *)
(** t[(None,)*k] : k new leading axes *)
Definition unsq_front {A} (k : nat) (t : tensor A) : tensor A :=
  mkT (repeat 1 k ++ shp t) (fun i => get t (skipn k i)).
(** new axis of size 1 with [k] axes to its right *)
Definition unsqE {A} (k : nat) (t : tensor A) : tensor A :=
  mkT (droplast k (shp t) ++ [1] ++ lastn k (shp t))
      (fun i => get t (droplast (S k) i ++ lastn k i)).
(** the size of the axis with [k] axes to its right: shape[-(k+1)] *)
Definition dimE (k : nat) (sh : list nat) : nat := nth k (rev sh) 0.
(** squeeze of the axis with [k] axes to its right: no-op unless its size is 1 *)
Definition squeezeE {A} (k : nat) (t : tensor A) : tensor A :=
  if dimE k (shp t) =? 1 then
    mkT (droplast (S k) (shp t) ++ lastn k (shp t))
        (fun i => get t (droplast k i ++ [0] ++ lastn k i))
  else t.
(** expand(shape): leading axes added, size-1 axes repeated *)
Fixpoint exp_ok_rev (r target : list nat) : bool :=
  match r, target with
  | [], _ => true
  | d :: r', e :: t' => ((d =? e) || (d =? 1)) && exp_ok_rev r' t'
  | _ :: _, [] => false
  end.
Definition expand {A} (t : tensor A) (sh : list nat) : res (tensor A) :=
  if exp_ok_rev (rev (shp t)) (rev sh)
  then Ok (mkT sh (fun i => get t (bproj (shp t) i)))
  else Err RuntimeError.
(** transpose(-2,-1) *)
Definition transE {A} (t : tensor A) : tensor A :=
  mkT (droplast 2 (shp t) ++ rev (lastn 2 (shp t)))
      (fun i => get t (droplast 2 i ++ rev (lastn 2 i))).
(** transpose(0,1) *)
Definition swap01 (l : list nat) : list nat :=
  match l with a :: b :: r => b :: a :: r | _ => l end.
Definition trans01 {A} (t : tensor A) : tensor A :=
  mkT (swap01 (shp t)) (fun i => get t (swap01 i)).
(** t[n] on the first axis (nonnegative n) *)
Definition sel0 {A} (t : tensor A) (n : nat) : tensor A :=
  mkT (tl (shp t)) (fun i => get t (n :: i)).
(** select on the axis with [k] axes to its right *)
Definition selE {A} (k : nat) (t : tensor A) (n : nat) : tensor A :=
  mkT (droplast (S k) (shp t) ++ lastn k (shp t))
      (fun i => get t (droplast k i ++ [n] ++ lastn k i)).
(** reindexing of the axis with [k] axes to its right: entry p of the new axis
    (size [n]) is entry [f p] of the old one; models basic slices *)
Definition sliceE {A} (k n : nat) (f : nat -> nat) (t : tensor A) : tensor A :=
  mkT (droplast (S k) (shp t) ++ [n] ++ lastn k (shp t))
      (fun i => get t (droplast (S k) i ++ [f (nth 0 (lastn (S k) i) 0)] ++ lastn k i)).
(** cat of two tensors along the axis with [k] axes to its right *)
Definition cat2E {A} (k : nat) (a b : tensor A) : res (tensor A) :=
  if list_eqb (droplast (S k) (shp a)) (droplast (S k) (shp b))
     && list_eqb (lastn k (shp a)) (lastn k (shp b))
     && (ndim a =? ndim b) && (S k <=? ndim a) then
    let n := dimE k (shp a) in
    Ok (mkT (droplast (S k) (shp a) ++ [n + dimE k (shp b)] ++ lastn k (shp a))
        (fun i => let p := nth 0 (lastn (S k) i) 0 in
           if p <? n then get a i
           else get b (droplast (S k) i ++ [p - n] ++ lastn k i)))
  else Err RuntimeError.
(** torch.stack with the new axis having [k] axes to its right *)
Definition stackE {A} (k : nat) (ts : list (tensor A)) : res (tensor A) :=
  match ts with
  | [] => Err RuntimeError
  | t0 :: _ =>
      if forallb (fun t => list_eqb (shp t) (shp t0)) ts then
        Ok (mkT (droplast k (shp t0) ++ [List.length ts] ++ lastn k (shp t0))
           (fun i => get (nth (nth 0 (lastn (S k) i) 0) ts t0)
                         (droplast (S k) i ++ lastn k i)))
      else Err RuntimeError
  end.
(** torch.stack(ts, dim=0) *)
Definition stack0 {A} (ts : list (tensor A)) : res (tensor A) :=
  match ts with
  | [] => Err RuntimeError
  | t0 :: _ =>
      if forallb (fun t => list_eqb (shp t) (shp t0)) ts then
        Ok (mkT (List.length ts :: shp t0)
           (fun i => get (nth (hd 0 i) ts t0) (tl i)))
      else Err RuntimeError
  end.

(** ** Reductions and products *)
(** sum over the last axis, keepdim *)
Definition sum1 {S : sops} (t : tensor S) : tensor S :=
  let d := dimE 0 (shp t) in
  mkT (droplast 1 (shp t) ++ [1])
      (fun i => bsum d (fun j => get t (droplast 1 i ++ [j]))).
(** sum over the last two axes, keepdim *)
Definition sum2 {S : sops} (t : tensor S) : tensor S :=
  let m := dimE 1 (shp t) in let n := dimE 0 (shp t) in
  mkT (droplast 2 (shp t) ++ [1; 1])
      (fun i => bsum m (fun j => bsum n (fun k => get t (droplast 2 i ++ [j; k])))).
(** sum over the axis with [k] axes to its right, dropping it *)
Definition sumE {S : sops} (k : nat) (t : tensor S) : tensor S :=
  let d := dimE k (shp t) in
  mkT (droplast (Datatypes.S k) (shp t) ++ lastn k (shp t))
      (fun i => bsum d (fun j => get t (droplast k i ++ [j] ++ lastn k i))).
(** sum over the first axis *)
Definition sum0 {S : sops} (t : tensor S) : tensor S :=
  mkT (tl (shp t)) (fun i => bsum (hd 0 (shp t)) (fun j => get t (j :: i))).

(** torch.matmul for operands with at least two axes *)
Definition matmul {S : sops} (a b : tensor S) : res (tensor S) :=
  match rev (shp a), rev (shp b) with
  | k :: m :: ra, n :: k' :: rb =>
      if k =? k' then
        match bcast_rev ra rb with
        | Some r => Ok (mkT (rev r ++ [m; n])
            (fun i =>
               let bt := droplast 2 i in
               let p := nth 0 (lastn 2 i) 0 in let q := nth 1 (lastn 2 i) 0 in
               bsum k (fun j => smul (get a (bproj (rev ra) bt ++ [p; j]))
                                     (get b (bproj (rev rb) bt ++ [j; q])))))
        | None => Err RuntimeError
        end
      else Err RuntimeError
  | _, _ => Err RuntimeError
  end.

(** ** einsum, driven by the literal subscript string of the source *)
Definition labels := list ascii.
Fixpoint split_eins (s : list ascii) (cur : labels) (acc : list labels)
  : list labels * labels :=
  match s with
  | [] => (rev (rev cur :: acc), [])
  | c :: s' =>
      if Ascii.eqb c ","%char then split_eins s' [] (rev cur :: acc)
      else if Ascii.eqb c "-"%char then (rev (rev cur :: acc), tl s')
      else split_eins s' (c :: cur) acc
  end.
Definition parse_eins (s : string) : list labels * labels :=
  split_eins (list_ascii_of_string s) [] [].

Definition env := list (ascii * nat).
Fixpoint elook (c : ascii) (e : env) : option nat :=
  match e with
  | [] => None
  | (c', n) :: e' => if Ascii.eqb c c' then Some n else elook c e'
  end.
Fixpoint eset (c : ascii) (n : nat) (e : env) : env :=
  match e with
  | [] => [(c, n)]
  | (c', n') :: e' => if Ascii.eqb c c' then (c', n) :: e' else (c', n') :: eset c n e'
  end.
(** size of each label; operands may have size-1 axes that broadcast *)
Fixpoint add_labels (ls : labels) (sh : list nat) (e : env) : option env :=
  match ls, sh with
  | [], [] => Some e
  | c :: ls', d :: sh' =>
      match elook c e with
      | None => add_labels ls' sh' (e ++ [(c, d)])
      | Some d' => match bdim d' d with
                   | Some m => add_labels ls' sh' (eset c m e)
                   | None => None
                   end
      end
  | _, _ => None
  end.
Fixpoint add_ops {A} (lss : list labels) (ts : list (tensor A)) (e : env) : option env :=
  match lss, ts with
  | [], [] => Some e
  | ls :: lss', t :: ts' =>
      match add_labels ls (shp t) e with
      | Some e' => add_ops lss' ts' e'
      | None => None
      end
  | _, _ => None
  end.
Definition inlabels (c : ascii) (ls : labels) : bool := existsb (Ascii.eqb c) ls.
Fixpoint mapopt {A B} (f : A -> option B) (l : list A) : option (list B) :=
  match l with
  | [] => Some []
  | x :: l' => match f x, mapopt f l' with
               | Some y, Some ys => Some (y :: ys)
               | _, _ => None
               end
  end.
Definition eval1 {A} (ls : labels) (t : tensor A) (e : env) : A :=
  get t (map2 (fun c d => bidx d (match elook c e with Some i => i | None => 0 end)) ls (shp t)).
Fixpoint evalops {S : sops} (lss : list labels) (ts : list (tensor S)) (e : env) : S :=
  match lss, ts with
  | [ls], [t] => eval1 ls t e
  | ls :: lss', t :: ts' => smul (eval1 ls t e) (evalops lss' ts' e)
  | _, _ => s1
  end.
Fixpoint sumover {S : sops} (cs : env) (k : env -> S) (e : env) : S :=
  match cs with
  | [] => k e
  | (c, d) :: cs' => bsum d (fun i => sumover cs' k ((c, i) :: e))
  end.
Definition einsum {S : sops} (s : string) (ts : list (tensor S)) : res (tensor S) :=
  let (lss, out) := parse_eins s in
  match add_ops lss ts [] with
  | None => Err RuntimeError
  | Some dims =>
      match mapopt (fun c => elook c dims) out with
      | None => Err RuntimeError
      | Some osh =>
          let contracted := filter (fun p => negb (inlabels (fst p) out)) dims in
          Ok (mkT osh (fun i => sumover contracted (evalops lss ts) (combine out i)))
      end
  end.

(** ** Basic facts *)
Lemma valid_nil idx : valid [] idx <-> idx = [].
Proof. split; [inversion 1; reflexivity | intros ->; constructor]. Qed.
Lemma valid_cons n sh idx :
  valid (n :: sh) idx <-> exists i r, idx = i :: r /\ i < n /\ valid sh r.
Proof.
  split.
  - inversion 1; subst; eauto.
  - intros (i & r & -> & Hi & Hr). constructor; assumption.
Qed.
Lemma valid_length sh idx : valid sh idx -> List.length idx = List.length sh.
Proof. induction 1; simpl; congruence. Qed.
Lemma valid_app sh1 sh2 i1 i2 : valid sh1 i1 -> valid sh2 i2 -> valid (sh1 ++ sh2) (i1 ++ i2).
Proof. intros H1 H2. apply Forall2_app; assumption. Qed.
Lemma valid_app_inv sh1 sh2 idx : valid (sh1 ++ sh2) idx ->
  exists i1 i2, idx = i1 ++ i2 /\ valid sh1 i1 /\ valid sh2 i2.
Proof.
  intros H. apply Forall2_app_inv_r in H as (i1 & i2 & H1 & H2 & ->).
  exists i1, i2; auto.
Qed.
Lemma valid_1 n i : valid [n] [i] <-> i < n.
Proof. split; [inversion 1; subst; assumption | repeat constructor; assumption]. Qed.
Lemma valid_2 m n i j : valid [m; n] [i; j] <-> i < m /\ j < n.
Proof.
  split; [inversion 1 as [|? ? ? ? ? H']; inversion H'; subst; auto
         | intros []; repeat constructor; assumption].
Qed.
Lemma valid_app1_inv sh n idx : valid (sh ++ [n]) idx ->
  exists b i, idx = b ++ [i] /\ valid sh b /\ i < n.
Proof.
  intros H. apply valid_app_inv in H as (b & r & -> & Hb & Hr).
  apply valid_cons in Hr as (i & r' & -> & Hi & Hr'). apply valid_nil in Hr'. subst.
  exists b, i; auto.
Qed.
Lemma valid_app2_inv sh m n idx : valid (sh ++ [m; n]) idx ->
  exists b i j, idx = b ++ [i; j] /\ valid sh b /\ i < m /\ j < n.
Proof.
  intros H. apply valid_app_inv in H as (b & r & -> & Hb & Hr).
  apply valid_cons in Hr as (i & r' & -> & Hi & Hr').
  apply valid_cons in Hr' as (j & r'' & -> & Hj & Hr''). apply valid_nil in Hr''. subst.
  exists b, i, j; auto.
Qed.
Lemma valid_app3_inv sh k m n idx : valid (sh ++ [k; m; n]) idx ->
  exists b p i j, idx = b ++ [p; i; j] /\ valid sh b /\ p < k /\ i < m /\ j < n.
Proof.
  intros H. apply valid_app_inv in H as (b & r & -> & Hb & Hr).
  apply valid_cons in Hr as (p & r' & -> & Hp & Hr').
  apply valid_cons in Hr' as (i & r'' & -> & Hi & Hr'').
  apply valid_cons in Hr'' as (j & r3 & -> & Hj & Hr3). apply valid_nil in Hr3. subst.
  exists b, p, i, j; auto 10.
Qed.

Lemma all_idx_spec sh idx : In idx (all_idx sh) <-> valid sh idx.
Proof.
  revert idx; induction sh as [|n sh IH]; intros idx; simpl.
  - rewrite valid_nil. split; [intros [<-|[]]; reflexivity | intros ->; auto].
  - rewrite in_flat_map, valid_cons. split.
    + intros (i & Hi & H). apply in_map_iff in H as (r & <- & Hr).
      apply in_seq in Hi. exists i, r. rewrite <- IH. repeat split; [lia|assumption].
    + intros (i & r & -> & Hi & Hr). exists i. split; [apply in_seq; lia|].
      apply in_map. apply IH; assumption.
Qed.
Lemma tall_spec {A} (p : A -> bool) t :
  tall p t = true <-> forall i, valid (shp t) i -> p (get t i) = true.
Proof.
  unfold tall. rewrite forallb_forall. split; intros H i Hi.
  - apply H, all_idx_spec, Hi.
  - apply H, all_idx_spec, Hi.
Qed.
Lemma tall_false {A} (p : A -> bool) t i :
  valid (shp t) i -> p (get t i) = false -> tall p t = false.
Proof.
  intros Hi Hp. destruct (tall p t) eqn:E; [|reflexivity].
  rewrite tall_spec in E. rewrite E in Hp by exact Hi. discriminate.
Qed.
Lemma all_idx_length sh : List.length (all_idx sh) = fold_right Nat.mul 1 sh.
Proof.
  induction sh as [|n sh IH]; [reflexivity|].
  cbn [all_idx fold_right]. rewrite <- IH. generalize (all_idx sh) as L. intros L.
  generalize 0 as s. induction n as [|n IHn]; intros s; [reflexivity|].
  cbn [seq flat_map]. rewrite app_length, map_length, IHn. reflexivity.
Qed.

(** *** broadcasting facts *)
Lemma bdim_refl a : bdim a a = Some a.
Proof. unfold bdim; rewrite Nat.eqb_refl; reflexivity. Qed.
Lemma bcast_rev_refl r : bcast_rev r r = Some r.
Proof. induction r as [|a r IH]; simpl; [reflexivity|]. rewrite bdim_refl, IH. reflexivity. Qed.
Lemma bcast_refl s : bcast s s = Some s.
Proof. unfold bcast. rewrite bcast_rev_refl. simpl. rewrite rev_involutive. reflexivity. Qed.
Lemma bcast_rev_nil_r r : bcast_rev r [] = Some r.
Proof. destruct r; reflexivity. Qed.
Lemma bidx_valid d i : i < d -> bidx d i = i.
Proof. unfold bidx. destruct (Nat.eqb_spec d 1); lia. Qed.
Lemma bidx_1 i : bidx 1 i = 0.
Proof. reflexivity. Qed.
Lemma bproj_app sh p i : List.length i = List.length sh ->
  bproj sh (p ++ i) = map2 bidx sh i.
Proof. intros H. unfold bproj. rewrite lastn_app by congruence. reflexivity. Qed.
Lemma map2_bidx_valid sh i : valid sh i -> map2 bidx sh i = i.
Proof.
  intros H. induction H as [|a n i sh Ha H IH]; [reflexivity|].
  simpl. rewrite IH, bidx_valid by assumption. reflexivity.
Qed.
Lemma bproj_valid sh p i : valid sh i -> bproj sh (p ++ i) = i.
Proof.
  intros H. rewrite bproj_app by (apply valid_length in H; congruence).
  apply map2_bidx_valid, H.
Qed.
Lemma bproj_self sh i : valid sh i -> bproj sh i = i.
Proof. intros H. apply (bproj_valid sh [] i H). Qed.
Lemma bproj_nil i : bproj [] i = [].
Proof. reflexivity. Qed.

Lemma rev_app_2 {A} (b : list A) m n : rev (b ++ [m; n]) = n :: m :: rev b.
Proof. rewrite rev_app_distr. reflexivity. Qed.
Lemma rev_app_3 {A} (b : list A) k m n : rev (b ++ [k; m; n]) = n :: m :: k :: rev b.
Proof. rewrite rev_app_distr. reflexivity. Qed.
Lemma dimE_0 b n : dimE 0 (b ++ [n]) = n.
Proof. unfold dimE. rewrite rev_app_distr. reflexivity. Qed.
Lemma dimE_2_0 b m n : dimE 0 (b ++ [m; n]) = n.
Proof. unfold dimE. rewrite rev_app_2. reflexivity. Qed.
Lemma dimE_2_1 b m n : dimE 1 (b ++ [m; n]) = m.
Proof. unfold dimE. rewrite rev_app_2. reflexivity. Qed.
Lemma dimE_3_0 b k m n : dimE 0 (b ++ [k; m; n]) = n.
Proof. unfold dimE. rewrite rev_app_3. reflexivity. Qed.
Lemma dimE_3_1 b k m n : dimE 1 (b ++ [k; m; n]) = m.
Proof. unfold dimE. rewrite rev_app_3. reflexivity. Qed.
Lemma dimE_3_2 b k m n : dimE 2 (b ++ [k; m; n]) = k.
Proof. unfold dimE. rewrite rev_app_3. reflexivity. Qed.

Lemma matmul_spec {S : sops} (a b : tensor S) ba bb c m k n :
  shp a = ba ++ [m; k] -> shp b = bb ++ [k; n] -> bcast ba bb = Some c ->
  exists t, matmul a b = Ok t /\ shp t = c ++ [m; n] /\
    forall bt i j, get t (bt ++ [i; j]) =
      bsum k (fun q => smul (get a (bproj ba bt ++ [i; q])) (get b (bproj bb bt ++ [q; j]))).
Proof.
  intros Ha Hb Hc. unfold matmul. rewrite Ha, Hb, !rev_app_2, Nat.eqb_refl.
  unfold bcast in Hc. destruct (bcast_rev (rev ba) (rev bb)) as [r|] eqn:E; [|discriminate].
  simpl in Hc. injection Hc as <-.
  eexists; split; [reflexivity|]. split; [reflexivity|].
  intros bt i j. cbn [get]. rewrite (droplast_app bt [i; j] 2 eq_refl).
  rewrite (lastn_app bt [i; j] 2 eq_refl), !rev_involutive. reflexivity.
Qed.
Lemma matmul_same {S : sops} (a b : tensor S) B m k n :
  shp a = B ++ [m; k] -> shp b = B ++ [k; n] ->
  exists t, matmul a b = Ok t /\ shp t = B ++ [m; n] /\
    forall bt i j, valid B bt -> get t (bt ++ [i; j]) =
      bsum k (fun q => smul (get a (bt ++ [i; q])) (get b (bt ++ [q; j]))).
Proof.
  intros Ha Hb. destruct (matmul_spec a b B B B m k n Ha Hb (bcast_refl B)) as (t & H1 & H2 & H3).
  exists t; repeat split; [exact H1|exact H2|]. intros bt i j Hbt.
  rewrite H3, bproj_self by exact Hbt. reflexivity.
Qed.
Lemma tzip_same {A B C} (f : A -> B -> C) a b s :
  shp a = s -> shp b = s ->
  exists t, tzip f a b = Ok t /\ shp t = s /\
    forall i, valid s i -> get t i = f (get a i) (get b i).
Proof.
  intros Ha Hb. unfold tzip. rewrite Ha, Hb, bcast_refl.
  eexists; split; [reflexivity|]. split; [reflexivity|].
  intros i Hi. cbn [get]. rewrite bproj_self by exact Hi. reflexivity.
Qed.
(** operand [b] has the same leading axes and size-1 trailing axes *)
Lemma bcast_ones_r s l : bcast (s ++ l) (s ++ repeat 1 (List.length l)) = Some (s ++ l).
Proof.
  unfold bcast. rewrite !rev_app_distr.
  assert (Hr : rev (repeat 1 (List.length l)) = repeat 1 (List.length (rev l))).
  { rewrite rev_length. generalize (List.length l) as n.
    induction n as [|n IH]; [reflexivity|]. simpl. rewrite IH.
    clear. induction n as [|n IH]; [reflexivity|]. simpl. rewrite IH. reflexivity. }
  rewrite Hr.
  assert (H : forall r q, bcast_rev (r ++ q) (repeat 1 (List.length r) ++ q) = Some (r ++ q)).
  { induction r as [|x r IH]; intros q; [apply bcast_rev_refl|].
    cbn [List.length repeat app bcast_rev]. rewrite IH. unfold bdim.
    destruct (Nat.eqb_spec x 1) as [->|Hx]; [reflexivity|].
    rewrite Nat.eqb_refl. reflexivity. }
  rewrite H. simpl. rewrite <- rev_app_distr, rev_involutive. reflexivity.
Qed.
Lemma map2_app {A B C} (f : A -> B -> C) l1 l2 m1 m2 :
  List.length l1 = List.length m1 ->
  map2 f (l1 ++ l2) (m1 ++ m2) = map2 f l1 m1 ++ map2 f l2 m2.
Proof.
  revert m1; induction l1 as [|x l1 IH]; intros [|y m1] H; simpl in *; try discriminate;
    [reflexivity|]. rewrite IH by congruence. reflexivity.
Qed.
Lemma bproj_ones s b r : valid s b ->
  bproj (s ++ repeat 1 (List.length r)) (b ++ r) = b ++ repeat 0 (List.length r).
Proof.
  intros H. unfold bproj. rewrite lastn_all
    by (rewrite !app_length, repeat_length; apply valid_length in H; lia).
  rewrite map2_app by (apply valid_length in H; congruence).
  rewrite map2_bidx_valid by exact H. f_equal.
  induction r as [|x r IH]; [reflexivity|]. simpl. rewrite IH. reflexivity.
Qed.
Lemma tzip_scale2 {A B C} (f : A -> B -> C) (a : tensor A) (b : tensor B) s m n :
  shp a = s ++ [m; n] -> shp b = s ++ [1; 1] ->
  exists t, tzip f a b = Ok t /\ shp t = s ++ [m; n] /\
    forall bt i j, valid s bt -> i < m -> j < n ->
      get t (bt ++ [i; j]) = f (get a (bt ++ [i; j])) (get b (bt ++ [0; 0])).
Proof.
  intros Ha Hb. unfold tzip. rewrite Ha, Hb.
  pose proof (bcast_ones_r s [m; n]) as Hbc. cbn [List.length repeat] in Hbc. rewrite Hbc.
  eexists; split; [reflexivity|]. split; [reflexivity|].
  intros bt i j Hb' Hi Hj. cbn [get].
  rewrite bproj_self by (apply valid_app; [exact Hb'|apply valid_2; auto]).
  pose proof (bproj_ones s bt [i; j] Hb') as Hp. cbn [List.length repeat] in Hp. rewrite Hp.
  reflexivity.
Qed.
