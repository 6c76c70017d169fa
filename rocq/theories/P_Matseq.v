(** * P_Matseq: properties C01, C02, C03 (torchmps/mps_base.py, contract_matseq). *)
From Coq Require Import Reals Lra FunctionalExtensionality.
From Verif Require Import Base Scalars Tensor Utils2 MpsBase Spec MatSpec Utils2Proofs MatFinal.

Section P.
  Variable K : numfield.

  (** C01, log_format=True: any number of matrices, any compatible shapes, any
      broadcastable batch shapes, zero/one/two boundary vectors, both strategies.
      Wherever the exact product is not identically zero, the outputs are finite and
      contraction * exp(log_scale) is the exact product. *)
  Theorem C01_contract_matseq_log (m : tseq K) (lv rv : option (tensor K)) (par : bool)
      (B : list nat) (d e : nat) :
    seq_shape m d e -> vec_shape lv d -> vec_shape rv e ->
    is_broadcast (vec_batches lv ++ vec_batches rv ++ seq_batches m) B ->
    exists P L,
      contract_matseq K (tslift m) (option_map tlift lv) (option_map tlift rv) par = Ok (P, L) /\
      shp P = B ++ out_shape lv rv d e /\
      shp L = B ++ repeat 1 (List.length (out_shape lv rv d e)) /\
      forall b, valid B b ->
        (exists r, valid (out_shape lv rv d e) r /\ exact_entry m lv rv d e b r <> s0) ->
        exists s, get L (b ++ repeat 0 (List.length (out_shape lv rv d e))) = XFin s /\
          forall r, valid (out_shape lv rv d e) r ->
            exists c, get P (b ++ r) = Fin c /\
                      smul c (nofR K (exp s)) = exact_entry m lv rv d e b r.
  Proof. exact (contract_matseq_exact K m lv rv par B d e). Qed.

  (** C01, log_format=False: the product itself is returned. *)
  Theorem C01_contract_matseq_value (m : tseq K) (lv rv : option (tensor K)) (par : bool)
      (B : list nat) (d e : nat) :
    seq_shape m d e -> vec_shape lv d -> vec_shape rv e ->
    is_broadcast (vec_batches lv ++ vec_batches rv ++ seq_batches m) B ->
    exists V,
      contract_matseq_value K (tslift m) (option_map tlift lv) (option_map tlift rv) par = Ok V /\
      shp V = B ++ out_shape lv rv d e /\
      forall b, valid B b ->
        (exists r, valid (out_shape lv rv d e) r /\ exact_entry m lv rv d e b r <> s0) ->
        forall r, valid (out_shape lv rv d e) r ->
          get V (b ++ r) = Fin (exact_entry m lv rv d e b r).
  Proof. exact (contract_matseq_value_exact K m lv rv par B d e). Qed.

  (** C02: parallel and sequential evaluation denote the same product. *)
  Theorem C02_parallel_same_value (m : tseq K) (lv rv : option (tensor K))
      (B : list nat) (d e : nat) :
    seq_shape m d e -> vec_shape lv d -> vec_shape rv e ->
    is_broadcast (vec_batches lv ++ vec_batches rv ++ seq_batches m) B ->
    exists P1 L1 P2 L2,
      contract_matseq K (tslift m) (option_map tlift lv) (option_map tlift rv) true = Ok (P1, L1) /\
      contract_matseq K (tslift m) (option_map tlift lv) (option_map tlift rv) false = Ok (P2, L2) /\
      shp P1 = shp P2 /\ shp L1 = shp L2 /\
      forall b, valid B b ->
        (exists r, valid (out_shape lv rv d e) r /\ exact_entry m lv rv d e b r <> s0) ->
        exists s1 s2,
          get L1 (b ++ repeat 0 (List.length (out_shape lv rv d e))) = XFin s1 /\
          get L2 (b ++ repeat 0 (List.length (out_shape lv rv d e))) = XFin s2 /\
          forall r, valid (out_shape lv rv d e) r ->
            exists c1 c2, get P1 (b ++ r) = Fin c1 /\ get P2 (b ++ r) = Fin c2 /\
              smul c1 (nofR K (exp s1)) = smul c2 (nofR K (exp s2)).
  Proof.
    intros H1 H2 H3 H4.
    destruct (contract_matseq_exact K m lv rv true B d e H1 H2 H3 H4) as (P1 & L1 & E1 & HP1 & HL1 & G1).
    destruct (contract_matseq_exact K m lv rv false B d e H1 H2 H3 H4) as (P2 & L2 & E2 & HP2 & HL2 & G2).
    exists P1, L1, P2, L2. split; [exact E1|]. split; [exact E2|]. split; [congruence|]. split; [congruence|].
    intros b Hb Hn. destruct (G1 b Hb Hn) as (s1 & Hs1 & Hc1). destruct (G2 b Hb Hn) as (s2 & Hs2 & Hc2).
    exists s1, s2. split; [exact Hs1|]. split; [exact Hs2|]. intros r Hr.
    destruct (Hc1 r Hr) as (c1 & Hg1 & Hx1). destruct (Hc2 r Hr) as (c2 & Hg2 & Hx2).
    exists c1, c2. split; [exact Hg1|]. split; [exact Hg2|]. congruence.
  Qed.
  (** C02: a list of equal-shaped matrices and the tensor obtained by stacking them
      along the axis before the matrix axes give the same result, in every mode (even
      when the product is zero). *)
  Theorem C02_stacked_same (l : list (tensor K)) (t : tensor K) (lv rv : option (tensor K)) (par : bool) :
    stackE 2 l = Ok t -> (forall u, In u l -> 2 <= ndim u) ->
    contract_matseq K (TMany (map tlift l)) (option_map tlift lv) (option_map tlift rv) par
    = contract_matseq K (TOne (tlift t)) (option_map tlift lv) (option_map tlift rv) par.
  Proof.
    intros Hst Hnd. destruct l as [|t0 l]; [discriminate|]. unfold stackE in Hst.
    destruct (forallb (fun u => list_eqb (shp u) (shp t0)) (t0 :: l)) eqn:Ef; [|discriminate].
    injection Hst as <-. unfold contract_matseq. f_equal. cbn [map bundle_tensors].
    assert (Hf : forallb (fun u => list_eqb (shp u) (shp (tlift t0))) (map tlift l) = true).
    { cbn [forallb] in Ef. apply andb_true_iff in Ef as [_ Ef]. rewrite forallb_forall in Ef |- *.
      intros u Hu. apply in_map_iff in Hu as (w & <- & Hw). apply Ef, Hw. }
    rewrite Hf. assert (H2 : ndim (tlift t0) <? 2 = false).
    { apply Nat.ltb_ge. apply (Hnd t0). left; reflexivity. }
    rewrite H2. unfold stackE at 1. cbn [forallb]. rewrite list_eqb_refl, Hf. cbn [andb rbind].
    f_equal. f_equal.
    assert (Hn : forall p i, get (nth p (tlift t0 :: map tlift l) (tlift t0)) i = Fin (get (nth p (t0 :: l) t0) i)).
    { intros p i. change (tlift t0 :: map tlift l) with (map (@tlift K) (t0 :: l)).
      rewrite map_nth. reflexivity. }
    match goal with |- mkT ?s1 ?g1 = ?r =>
      change (mkT s1 g1 = mkT (shp r) (get r)) end.
    f_equal.
    - cbn [tlift tmap shp List.length]. rewrite map_length. reflexivity.
    - apply functional_extensionality. intros i. apply Hn.
  Qed.

  (** C03 as stated is false: the product of the 1x1 matrix (0) with boundary vectors
      (1) and (1) is 0, and the returned contraction is NaN. *)
  Definition zero_mats : tseq R_num := TOne (mkT [1; 1; 1] (fun _ => 0%R)).
  Definition one_vec : tensor R_num := mkT [1] (fun _ => 1%R).
  Theorem C03_zero_product_refuted :
    exists P L,
      contract_matseq R_num (tslift zero_mats) (Some (tlift one_vec)) (Some (tlift one_vec)) false
        = Ok (P, L) /\
      shp P = [] /\ exact_entry (K := R_num) zero_mats (Some one_vec) (Some one_vec) 1 1 [] [] = 0%R /\
      get P [] = Bad.
  Proof.
    destruct (contract_matseq_dichotomy R_num zero_mats (Some one_vec) (Some one_vec) false [] 1 1)
      as (P & L & E & HP & HL & H).
    - exists [], 1. split; [reflexivity|]. lia.
    - exists []. reflexivity.
    - exists []. reflexivity.
    - cbn. split; [discriminate|]. split; [intros t [<-|[<-|[<-|[]]]]; simpl; lia|].
      split; [exists []; simpl; auto|]. simpl. lia.
    - exists P, L. split; [exact E|]. split; [exact HP|].
      assert (Hx : exact_entry (K := R_num) zero_mats (Some one_vec) (Some one_vec) 1 1 [] [] = 0%R).
      { cbn. unfold sandwich, mmul. simpl. ring. }
      split; [exact Hx|]. apply (H []); try constructor; try discriminate. exact Hx.
  Qed.
  (** C03, what holds instead: a wrong finite number is never returned.  For every
      batch index, either all entries are finite and denote the exact product (zero or
      not), or the exact product is zero and every returned entry is non-finite.
      Missing for the full claim: the NaN results. *)
  Theorem C03_never_wrong_partial (m : tseq K) (lv rv : option (tensor K)) (par : bool)
      (B : list nat) (d e : nat) :
    seq_shape m d e -> vec_shape lv d -> vec_shape rv e ->
    is_broadcast (vec_batches lv ++ vec_batches rv ++ seq_batches m) B ->
    exists P L,
      contract_matseq K (tslift m) (option_map tlift lv) (option_map tlift rv) par = Ok (P, L) /\
      forall b, valid B b -> 0 < d -> 0 < e ->
        (exists s, get L (b ++ repeat 0 (List.length (out_shape lv rv d e))) = XFin s  /\
          forall r, valid (out_shape lv rv d e) r ->
            exists c, get P (b ++ r) = Fin c  /\
                      smul c (nofR K (exp s)) = exact_entry m lv rv d e b r) \/
        (forall r, valid (out_shape lv rv d e) r ->
            get P (b ++ r) = Bad /\ exact_entry m lv rv d e b r = s0).
  Proof.
    intros H1 H2 H3 H4.
    destruct (contract_matseq_dichotomy K m lv rv par B d e H1 H2 H3 H4) as (P & L & E & _ & _ & H).
    exists P, L. split; [exact E|]. intros b Hb Hd He. apply (H b Hb Hd He).
  Qed.
  (** Sharpness: in the default (sequential) mode with two boundary vectors a zero
      product is ALWAYS reported as NaN. *)
  Theorem C03_sequential_zero_is_nan (m : tseq K) (v w : tensor K) (B : list nat) (d e : nat) :
    seq_shape m d e -> vec_shape (Some v) d -> vec_shape (Some w) e ->
    is_broadcast (vec_batches (Some v) ++ vec_batches (Some w) ++ seq_batches m) B ->
    0 < d -> 0 < e ->
    exists P L,
      contract_matseq K (tslift m) (Some (tlift v)) (Some (tlift w)) false = Ok (P, L) /\
      shp P = B /\
      forall b, valid B b -> exact_entry m (Some v) (Some w) d e b [] = s0 -> get P b = Bad.
  Proof.
    intros H1 H2 H3 H4 Hd He.
    destruct (contract_matseq_dichotomy K m (Some v) (Some w) false B d e H1 H2 H3 H4) as (P & L & E & HP & _ & H).
    exists P, L. split; [exact E|]. split; [rewrite HP; apply app_nil_r|].
    intros b Hb Hx. apply (H b Hb Hd He); try discriminate; [reflexivity|exact Hx].
  Qed.
End P.

(** Non-vacuity: a batch of two pairs of 2x2 real matrices with an unbatched left
    vector and a batched right vector meets the hypotheses, with a nonzero product. *)
Definition ex_mats : tseq R_num :=
  TOne (mkT [2; 2; 2; 2] (fun i => INR (1 + nth 0 i 0 + nth 1 i 0 + 2 * nth 2 i 0 + nth 3 i 0))).
Definition ex_left : tensor R_num := mkT [2] (fun i => INR (1 + nth 0 i 0)).
Definition ex_right : tensor R_num := mkT [1; 2] (fun i => 1%R).
Example C01_hyps_met :
  seq_shape ex_mats 2 2 /\ vec_shape (Some ex_left) 2 /\ vec_shape (Some ex_right) 2  /\
  is_broadcast (vec_batches (Some ex_left) ++ vec_batches (Some ex_right) ++ seq_batches ex_mats) [2] /\
  valid [2] [1] /\
  exact_entry (K := R_num) ex_mats (Some ex_left) (Some ex_right) 2 2 [1] [] <> 0%R.
Proof.
  split; [exists [2], 2; split; [reflexivity|lia]|]. split; [exists []; reflexivity|].
  split; [exists [1]; reflexivity|]. split.
  - cbn. split; [discriminate|]. split; [intros t [<-|[<-|[<-|[]]]]; simpl; lia|].
    split; [exists [2]; simpl; auto|]. intros k Hk. assert (k = 0) by (simpl in Hk; lia). subst.
    split; [intros t [<-|[<-|[<-|[]]]]; cbn; auto|exists [2]; cbn; auto].
  - split; [repeat constructor|].
    unfold exact_entry, ex_mats, ex_left, ex_right. cbn -[INR]. unfold sandwich, mmul. cbn -[INR].
    rewrite !INR_IZR_INZ. cbn. lra.
Qed.
(** a list of two matrices of different shapes (rectangular chain) *)
Example C01_hyps_met_list :
  seq_shape (TMany [mkT [1; 3] (fun _ => 1%R); mkT [5; 3; 2] (fun _ => 1%R)] : tseq R_num) 1 2.
Proof.
  apply (compat_cons [] 1 3 2); [reflexivity|]. apply (compat_cons [5] 3 2 2); [reflexivity|]. constructor.
Qed.
Example C02_stack_met : exists t, stackE 2 [ex_right; ex_right] = Ok t /\ 2 <= ndim ex_right.
Proof. eexists. split; [reflexivity|]. apply le_n. Qed.

Print Assumptions C01_contract_matseq_log.
Print Assumptions C01_contract_matseq_value.
Print Assumptions C02_parallel_same_value.
Print Assumptions C02_stacked_same.
Print Assumptions C03_zero_product_refuted.
Print Assumptions C03_never_wrong_partial.
Print Assumptions C03_sequential_zero_is_nan.
