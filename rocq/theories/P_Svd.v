(** * P_Svd: properties C46 and C47 (torchmps/utils.py: svd_flex) *)
From Coq Require Import Reals Lra Permutation.
From Verif Require Import Base Scalars Tensor Contractables Utils UtilsSpec UtilsProofs SvdProofs SvdFinal.

(** The hypotheses, common to all theorems below.  [svd] stands for torch.svd; it is assumed
    to return a singular value decomposition (U, S, V) of the matrix of [T] for the partition
    asked for.  [size x] is the size of the axis labelled x. *)
Record svd_call (svd : tensor R_ops -> tensor R_ops * tensor R_ops * tensor R_ops)
    (T : tensor R_ops) (size : ascii -> nat) (s : string) (init left right : list ascii) (c : ascii)
    (U S V : tensor R_ops) : Prop := {
  call_labels : svd_labels s init left right c;
  call_shape : shp T = map size init;
  call_U : shp U = [volume (map size (remove ascii_dec c left));
                    Nat.min (volume (map size (remove ascii_dec c left))) (volume (map size (remove ascii_dec c right)))];
  call_S : shp S = [Nat.min (volume (map size (remove ascii_dec c left))) (volume (map size (remove ascii_dec c right)))];
  call_V : shp V = [volume (map size (remove ascii_dec c right));
                    Nat.min (volume (map size (remove ascii_dec c left))) (volume (map size (remove ascii_dec c right)))];
  call_svd : forall A, matrix_of size T init (remove ascii_dec c left) (remove ascii_dec c right) A ->
    svd A = (U, S, V) /\
    is_svd (volume (map size (remove ascii_dec c left))) (volume (map size (remove ascii_dec c right)))
      (fun i j => get A [i; j]) (fun i p => get U [i; p]) (fun j p => get V [j; p]) (fun p => get S [p]) }.

Section Svd.
  Variable svd : tensor R_ops -> tensor R_ops * tensor R_ops * tensor R_ops.
  Variables (T : tensor R_ops) (size : ascii -> nat) (s : string) (init left right : list ascii) (c : ascii) (U S V : tensor R_ops).
  Hypothesis H : svd_call svd T size s init left right c U S V.
  (** the position of the labels of the rows and columns, the number of singular values *)
  Let lr := remove ascii_dec c left.
  Let lc := remove ascii_dec c right.
  Let k := Nat.min (volume (map size lr)) (volume (map size lc)).
  Let row (sg : ascii -> nat) := position (map size lr) (map sg lr).
  Let col (sg : ascii -> nat) := position (map size lc) (map sg lc).
  Let Hd A (HA : matrix_of size T init lr lc A) := proj2 (call_svd _ _ _ _ _ _ _ _ _ _ _ H A HA).
  Let He A (HA : matrix_of size T init lr lc A) := proj1 (call_svd _ _ _ _ _ _ _ _ _ _ _ H A HA).
  Lemma no_sv max_D : match @None nat with None => True | Some l => l = spectrum_len max_D k end. Proof. exact I. Qed.

  (** the contraction over the new bond is the sum of the kept singular triples, the factors
      have the axis order of svd_string, and sv_right only says where the singular values go *)
  Theorem C46_splits max_D cutoff sv_right Lt Rt t sv :
    svd_flex svd T s max_D cutoff sv_right None = Ok (Lt, Rt, t, sv) ->
    let d := new_dim max_D t in
    shp Lt = map (upd size c d) left /\ shp Rt = map (upd size c d) right /\
    (forall sg, within_sizes size sg init ->
       contract Lt Rt left right c d sg = bsum (S := R_ops) (Nat.min t k) (fun p => (get U [row sg; p] * get S [p] * get V [col sg; p])%R)) /\
    (forall sg p, within_sizes size sg init -> p < Nat.min t k ->
       get Lt (map (upd sg c p) left) = (get U [row sg; p] * (if sv_right then 1 else get S [p]))%R /\
       get Rt (map (upd sg c p) right) = ((if sv_right then get S [p] else 1) * get V [col sg; p])%R).
  Proof.
    intros E d. destruct H as [Hl HT HU HS HV Hsvd].
    destruct (flex svd T size init left right c s Hl HT U S V He HU HS HV Hd max_D cutoff sv_right None I) as [F0 F1].
    destruct (Nat.eq_dec (rnk size left right c S max_D cutoff) 0) as [Ez|Ez]; [rewrite (F0 Ez) in E; discriminate|].
    destruct (F1 Ez) as (Lt' & Rt' & sv' & E' & S1 & S2 & G1 & G2 & _). rewrite E in E'. injection E' as <- <- -> <-.
    split; [exact S1|]. split; [exact S2|]. split.
    - intros sg Hsg. apply (contract_value size init left right c U S V max_D cutoff sv_right); auto.
    - intros sg p Hsg Hp. pose proof (rnk_new size left right c S max_D cutoff Ez) as Hn.
      assert (Hp' : p < new_dim max_D (rnk size left right c S max_D cutoff)) by (unfold k, lr, lc in Hp; lia).
      rewrite G1, G2 by assumption. unfold lvl, rvl. apply Nat.ltb_lt in Hp. unfold k, lr, lc in Hp. rewrite Hp. split; reflexivity.
  Qed.
  (** nothing above zero is cut: the contraction is the input *)
  Theorem C46_exact max_D cutoff sv_right Lt Rt t sv :
    svd_flex svd T s max_D cutoff sv_right None = Ok (Lt, Rt, t, sv) ->
    (forall p, t <= p -> p < k -> get S [p] = 0%R) ->
    forall sg, within_sizes size sg init -> contract Lt Rt left right c (new_dim max_D t) sg = get T (map sg init).
  Proof.
    intros E H0 sg Hsg. destruct (C46_splits _ _ _ _ _ _ _ E) as (_ & _ & Hc & _). rewrite (Hc sg Hsg).
    destruct H as [Hl HT HU HS HV Hsvd]. rewrite (entry_sum T size init left right c s Hl HT U S V Hd sg Hsg). fold lr lc. fold k.
    rewrite <- (bsum_trunc (fun p => (get U [row sg; p] * get S [p] * get V [col sg; p])%R) (Nat.min t k) k) by lia.
    apply (bsum_ext (S := R_ops)). intros p Hp. destruct (Nat.ltb_spec p (Nat.min t k)); [reflexivity|].
    rewrite (H0 p) by lia. unfold row, col. rring.
  Qed.
  (** same partition, different sv_right: same contraction *)
  Theorem C46_sv_right max_D cutoff Lt Rt t sv Lt' Rt' t' sv' :
    svd_flex svd T s max_D cutoff true None = Ok (Lt, Rt, t, sv) ->
    svd_flex svd T s max_D cutoff false None = Ok (Lt', Rt', t', sv') ->
    t = t' /\ forall sg, within_sizes size sg init ->
      contract Lt Rt left right c (new_dim max_D t) sg = contract Lt' Rt' left right c (new_dim max_D t') sg.
  Proof.
    intros E E'. assert (Ht : t = t').
    { destruct H as [Hl HT HU HS HV Hsvd].
      assert (G : forall b L R u v, svd_flex svd T s max_D cutoff b None = Ok (L, R, u, v) -> u = rnk size left right c S max_D cutoff).
      { intros b L R u v X. destruct (flex svd T size init left right c s Hl HT U S V He HU HS HV Hd max_D cutoff b None I) as [F0 F1].
        destruct (Nat.eq_dec (rnk size left right c S max_D cutoff) 0) as [Ez|Ez]; [rewrite (F0 Ez) in X; discriminate|].
        destruct (F1 Ez) as (L' & R' & v' & X' & _). rewrite X in X'. injection X' as _ _ -> _. reflexivity. }
      rewrite (G _ _ _ _ _ E), (G _ _ _ _ _ E'). reflexivity. }
    split; [exact Ht|]. intros sg Hsg.
    destruct (C46_splits _ _ _ _ _ _ _ E) as (_ & _ & C1 & _). destruct (C46_splits _ _ _ _ _ _ _ E') as (_ & _ & C2 & _).
    rewrite C1, C2, Ht by exact Hsg. reflexivity.
  Qed.

  (** C47.  [count_ge cutoff f n] is the number of p < n with f p >= cutoff. *)
  Theorem C47_rank_partial max_D cutoff sv_right : (0 < cutoff)%R ->
    let r := count_ge cutoff (fun p => get S [p]) (Nat.min (spectrum_len max_D k) k) in
    (r = 0 -> svd_flex svd T s max_D cutoff sv_right None = Err RuntimeError) /\
    (0 < r -> exists Lt Rt sv, svd_flex svd T s max_D cutoff sv_right None = Ok (Lt, Rt, r, sv)).
  Proof.
    intros Hc r. destruct H as [Hl HT HU HS HV Hsvd].
    destruct (flex svd T size init left right c s Hl HT U S V He HU HS HV Hd max_D cutoff sv_right None I) as [F0 F1].
    pose proof (rnk_count_pos T size init left right c s Hl HT U S V Hd max_D cutoff Hc) as Er. unfold r, k, lr, lc.
    rewrite <- Er. split; [exact F0|]. intros Hr. destruct (F1 ltac:(lia)) as (Lt & Rt & sv & X & _). eauto.
  Qed.
  (** for any cutoff: the zeros of the padding are counted too when cutoff <= 0 *)
  Theorem C47_rank max_D cutoff sv_right :
    let f := fun p => if p <? k then get S [p] else 0%R in
    let r := count_ge cutoff f (spectrum_len max_D k) in
    (r = 0 -> svd_flex svd T s max_D cutoff sv_right None = Err RuntimeError) /\
    (0 < r -> exists Lt Rt sv, svd_flex svd T s max_D cutoff sv_right None = Ok (Lt, Rt, r, sv)).
  Proof.
    intros f r. destruct H as [Hl HT HU HS HV Hsvd].
    destruct (flex svd T size init left right c s Hl HT U S V He HU HS HV Hd max_D cutoff sv_right None I) as [F0 F1].
    pose proof (rnk_count T size init left right c s Hl HT U S V Hd max_D cutoff) as Er.
    assert (Er' : r = rnk size left right c S max_D cutoff) by (rewrite Er; reflexivity).
    rewrite Er'. split; [exact F0|]. intros Hr. destruct (F1 ltac:(lia)) as (Lt & Rt & sv & X & _). eauto.
  Qed.
  Theorem C47_rank_bounds max_D cutoff sv_right Lt Rt t sv :
    svd_flex svd T s max_D cutoff sv_right None = Ok (Lt, Rt, t, sv) ->
    1 <= t /\ match max_D with Some (Datatypes.S d) => t <= Datatypes.S d | _ => t <= k end.
  Proof.
    intros E. destruct H as [Hl HT HU HS HV Hsvd].
    destruct (flex svd T size init left right c s Hl HT U S V He HU HS HV Hd max_D cutoff sv_right None I) as [F0 F1].
    destruct (Nat.eq_dec (rnk size left right c S max_D cutoff) 0) as [Ez|Ez]; [rewrite (F0 Ez) in E; discriminate|].
    destruct (F1 Ez) as (Lt' & Rt' & sv' & E' & _). rewrite E in E'. injection E' as _ _ -> _.
    pose proof (rnk_le size left right c S max_D cutoff) as Hr. unfold spectrum_len in Hr. split; [lia|]. destruct max_D as [[|d]|]; exact Hr.
  Qed.
  (** padded entries are zero, on both sides *)
  Theorem C47_padding max_D cutoff sv_right Lt Rt t sv :
    svd_flex svd T s max_D cutoff sv_right None = Ok (Lt, Rt, t, sv) ->
    forall sg p, within_sizes size sg init -> t <= p -> p < new_dim max_D t ->
      get Lt (map (upd sg c p) left) = 0%R /\ get Rt (map (upd sg c p) right) = 0%R.
  Proof.
    intros E sg p Hsg Htp Hp. destruct H as [Hl HT HU HS HV Hsvd].
    destruct (flex svd T size init left right c s Hl HT U S V He HU HS HV Hd max_D cutoff sv_right None I) as [F0 F1].
    destruct (Nat.eq_dec (rnk size left right c S max_D cutoff) 0) as [Ez|Ez]; [rewrite (F0 Ez) in E; discriminate|].
    destruct (F1 Ez) as (Lt' & Rt' & sv' & E' & S1 & S2 & G1 & G2 & _). rewrite E in E'. injection E' as <- <- -> <-.
    rewrite G1, G2 by assumption. unfold lvl, rvl.
    destruct (Nat.ltb_spec p (Nat.min (rnk size left right c S max_D cutoff) (Nat.min (volume (map size (remove ascii_dec c left))) (volume (map size (remove ascii_dec c right)))))); [lia|]. split; reflexivity.
  Qed.
  (** squared Frobenius distance between the input and the contraction of the factors *)
  Theorem C47_frobenius_error max_D cutoff sv_right Lt Rt t sv :
    svd_flex svd T s max_D cutoff sv_right None = Ok (Lt, Rt, t, sv) ->
    rsum (map (fun idx => let e := (get T idx - contract Lt Rt left right c (new_dim max_D t) (reading init idx))%R in (e * e)%R) (all_idx (shp T)))
    = bsum (S := R_ops) k (fun p => if p <? t then 0%R else (get S [p] * get S [p])%R).
  Proof.
    intros E. destruct H as [Hl HT HU HS HV Hsvd].
    destruct (flex svd T size init left right c s Hl HT U S V He HU HS HV Hd max_D cutoff sv_right None I) as [F0 F1].
    destruct (Nat.eq_dec (rnk size left right c S max_D cutoff) 0) as [Ez|Ez]; [rewrite (F0 Ez) in E; discriminate|].
    destruct (F1 Ez) as (Lt' & Rt' & sv' & E' & S1 & S2 & G1 & G2 & _). rewrite E in E'. injection E' as <- <- -> <-.
    apply (frob_error T size init left right c s Hl HT U S V Hd max_D cutoff sv_right); assumption.
  Qed.
  (** sv_vec receives the spectrum cut or padded to max_D, but NOT truncated by the cutoff; a
      sv_vec of another length raises TypeError *)
  Theorem C47_sv_vec max_D cutoff sv_right Lt Rt t sv :
    svd_flex svd T s max_D cutoff sv_right (Some (spectrum_len max_D k)) = Ok (Lt, Rt, t, sv) ->
    exists v, sv = Some v /\ shp v = [spectrum_len max_D k] /\
      forall p, p < spectrum_len max_D k -> get v [p] = if p <? k then get S [p] else 0%R.
  Proof.
    intros E. destruct H as [Hl HT HU HS HV Hsvd].
    destruct (flex svd T size init left right c s Hl HT U S V He HU HS HV Hd max_D cutoff sv_right (Some (spectrum_len max_D k)) eq_refl) as [F0 F1].
    destruct (Nat.eq_dec (rnk size left right c S max_D cutoff) 0) as [Ez|Ez]; [rewrite (F0 Ez) in E; discriminate|].
    destruct (F1 Ez) as (Lt' & Rt' & sv' & E' & S1 & S2 & G1 & G2 & G). rewrite E in E'. injection E' as _ _ _ ->.
    destruct sv' as [v|]; [|destruct G]. exists v. split; [reflexivity|]. exact G.
  Qed.
End Svd.

(** non-vacuity: the 2 x 2 matrix diag(3, 2), split into two matrices *)
Definition ex_T : tensor R_ops := mkT [2; 2] (fun i => if nth 0 i 0 =? nth 1 i 0 then (if nth 0 i 0 =? 0 then 3%R else 2%R) else 0%R).
Definition ex_I : tensor R_ops := mkT [2; 2] (fun i => if nth 0 i 0 =? nth 1 i 0 then 1%R else 0%R).
Definition ex_S : tensor R_ops := mkT [2] (fun i => if nth 0 i 0 =? 0 then 3%R else 2%R).
Lemma ex_call : svd_call (fun _ => (ex_I, ex_S, ex_I)) ex_T (fun _ => 2) "lr -> bl,br" (chars "lr") (chars "bl") (chars "br") "b" ex_I ex_S ex_I.
Proof.
  constructor; try reflexivity.
  - constructor; try (apply nodupb_NoDup; reflexivity).
    + reflexivity.
    + intros x Hx. cbn in Hx. repeat (destruct Hx as [<-|Hx]; [cbv; lia|]). destruct Hx.
    + cbn; auto.
    + cbn; auto.
    + cbn. intros [X|[X|[]]]; discriminate.
    + cbn. apply Permutation_refl.
  - intros A HA. split; [reflexivity|].
    assert (EA : forall i j, i < 2 -> j < 2 -> get A [i; j] = get ex_T [i; j]).
    { intros i j Hi Hj. destruct HA as [_ HA]. specialize (HA (fun x => if Ascii.eqb x "l"%char then i else j)).
      cbn in HA. apply HA. intros x Hx. cbn in Hx. destruct Hx as [<-|[<-|[]]]; cbn; assumption. }
    cbn [chars list_ascii_of_string remove ascii_dec map volume fold_left]. constructor.
    + intros p q Hp Hq. cbn in Hp, Hq. destruct p as [|[|p]]; [| |lia]; (destruct q as [|[|q]]; [| |lia]); cbn; lra.
    + intros p q Hp Hq. cbn in Hp, Hq. destruct p as [|[|p]]; [| |lia]; (destruct q as [|[|q]]; [| |lia]); cbn; lra.
    + intros p Hp. cbn in Hp. destruct p as [|[|p]]; [| |lia]; cbn; lra.
    + intros p q Hpq Hq. cbn in Hq. destruct p as [|[|p]]; [| |lia]; (destruct q as [|[|q]]; [| |lia]); try lia; cbn; lra.
    + intros i j Hi Hj. cbn in Hi, Hj. rewrite EA by assumption. destruct i as [|[|i]]; [| |lia]; (destruct j as [|[|j]]; [| |lia]); cbn; lra.
Qed.
(** with cutoff 5/2 one singular value is kept *)
Example C46_example : exists Lt Rt sv, svd_flex (fun _ => (ex_I, ex_S, ex_I)) ex_T "lr -> bl,br" None (5/2) true None = Ok (Lt, Rt, 1, sv).
Proof.
  destruct (C47_rank_partial _ _ _ _ _ _ _ _ _ _ _ ex_call None (5/2)%R true ltac:(lra)) as [_ F].
  cbn in F. destruct (Rle_dec (5/2) 3) as [|X]; [|exfalso; lra]. destruct (Rle_dec (5/2) 2) as [X|]; [exfalso; lra|]. apply F. lia.
Qed.
(** the count is not the number of singular values when cutoff <= 0 and the bond is padded *)
Theorem C47_nonpositive_cutoff_refuted : exists svd T size s init left right c U S V,
  svd_call svd T size s init left right c U S V /\
  exists Lt Rt sv, svd_flex svd T s (Some 5) 0%R true None = Ok (Lt, Rt, 5, sv) /\ shp S = [2].
Proof.
  do 11 eexists. split; [exact ex_call|].
  destruct (C47_rank _ _ _ _ _ _ _ _ _ _ _ ex_call (Some 5) 0%R true) as [_ F]. cbn in F.
  destruct (Rle_dec 0 3) as [|X]; [|exfalso; lra]. destruct (Rle_dec 0 2) as [|X]; [|exfalso; lra]. destruct (Rle_dec 0 0) as [|X]; [|exfalso; lra].
  destruct (F ltac:(lia)) as (Lt & Rt & sv & E). exists Lt, Rt, sv. split; [exact E|reflexivity].
Qed.
Print Assumptions C46_splits.
Print Assumptions C46_exact.
Print Assumptions C46_sv_right.
Print Assumptions C47_rank_partial.
Print Assumptions C47_rank.
Print Assumptions C47_rank_bounds.
Print Assumptions C47_padding.
Print Assumptions C47_frobenius_error.
Print Assumptions C47_sv_vec.
Print Assumptions C47_nonpositive_cutoff_refuted.
