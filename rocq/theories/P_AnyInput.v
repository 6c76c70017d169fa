(** * P_AnyInput: C91, the outcome of ProbMPS.forward and ProbUnifMPS.forward for every input tensor
    (torchmps/prob_mps.py:148-204, :374-433, torchmps/mps_base.py slim_eval_fun, get_mat_slices). *)
From Coq Require Import Reals Lra Classical_Prop FunctionalExtensionality.
From Verif Require Import Base Scalars Tensor Utils2 MpsBase Embeddings ProbMps Spec MatSpec ModelSpec EmbSpec InputSpec LinAlg
  EinsumProofs LogNorm Utils2Proofs MatFinal SlimProofs ProbProofs EmbProofs P_Prob P_Emb P_EmbExact P_ZeroExact.

Section P.
  Variable K : numfield.
  Add Ring KrAI : (rth K).
  Notation XK := (xn_ops K).

  (** *** negative letters *)
  Definition wrap (d : nat) (ix : tensor Z) : tensor Z :=
    mkT (shp ix) (fun i => let z := get ix i in if in_range d z then Z.of_nat (pyidx d z) else z).
  Lemma pyidx_wrap d z : pyidx d (if in_range d z then Z.of_nat (pyidx d z) else z) = pyidx d z.
  Proof.
    destruct (in_range d z); [|reflexivity]. rewrite pyidx_nonneg by lia. apply Nat2Z.id.
  Qed.
  Lemma in_range_spec d z : in_range d z = true <-> (- Z.of_nat d <= z < Z.of_nat d)%Z.
  Proof. unfold in_range. rewrite andb_true_iff, Z.leb_le, Z.ltb_lt. reflexivity. Qed.
  Lemma pyidx_lt d z : in_range d z = true -> pyidx d z < d.
  Proof. intros H. apply in_range_spec in H. unfold pyidx. destruct (Z.ltb_spec z 0); lia. Qed.
  Lemma pyidx_mod d z : in_range d z = true -> pyidx d z = Z.to_nat (z mod Z.of_nat d).
  Proof.
    intros H. apply in_range_spec in H. unfold pyidx. destruct (Z.ltb_spec z 0).
    - f_equal. symmetry. rewrite <- (Z_mod_plus_full z 1), Z.mul_1_l. apply Z.mod_small. lia.
    - f_equal. symmetry. apply Z.mod_small. lia.
  Qed.
  Lemma in_range_wrap d z : in_range d (if in_range d z then Z.of_nat (pyidx d z) else z) = in_range d z.
  Proof.
    destruct (in_range d z) eqn:E; [|exact E]. apply in_range_spec. pose proof (pyidx_lt d z E). lia.
  Qed.
  Lemma gather0_wrap {A} (c : tensor A) ix : gather0 c (wrap (hd 0 (shp c)) ix) = gather0 c ix.
  Proof.
    unfold gather0. set (d := hd 0 (shp c)). unfold tall, wrap, ndim. cbn [shp get]. cbv zeta.
    replace (forallb (fun i => in_range d (if in_range d (get ix i) then Z.of_nat (pyidx d (get ix i)) else get ix i)) (all_idx (shp ix)))
      with (forallb (fun i => in_range d (get ix i)) (all_idx (shp ix))).
    2:{ f_equal. extensionality i. symmetry. apply in_range_wrap. }
    destruct (forallb _ _); [|reflexivity]. f_equal. f_equal. extensionality i. rewrite pyidx_wrap. reflexivity.
  Qed.
  Lemma gather0_wrap_sel {A} (c : tensor A) ix t d : hd 0 (shp c) = d ->
    gather0 c (sel0 (trans01 (wrap d ix)) t) = gather0 c (sel0 (trans01 ix) t).
  Proof.
    intros <-. rewrite <- (gather0_wrap c (sel0 (trans01 ix) t)). f_equal.
  Qed.

  Lemma gather01_wrap {A} (c : tensor A) ix n d r : shp c = n :: d :: r -> gather01 c (wrap d ix) = gather01 c ix.
  Proof.
    intros Hc. unfold gather01. rewrite Hc. unfold wrap. cbn [shp get]. cbv zeta.
    replace (forallb (fun i => (nth 1 i 0 <? n) && in_range d (if in_range d (get ix i) then Z.of_nat (pyidx d (get ix i)) else get ix i)) (all_idx (shp ix)))
      with (forallb (fun i => (nth 1 i 0 <? n) && in_range d (get ix i)) (all_idx (shp ix))).
    2:{ f_equal. extensionality i. rewrite in_range_wrap. reflexivity. }
    destruct (forallb _ _); [|reflexivity]. f_equal. f_equal. extensionality i. rewrite pyidx_wrap. reflexivity.
  Qed.
  Lemma slim_wrap (ix : tensor Z) (core bound : tensor K) (uniform : bool) (n d D : nat) :
    shp core = (if uniform then [d; D; D] else [n; d; D; D]) ->
    slim_eval_fun K (TLong (wrap d ix)) (tfin K core) (tfin K bound) = slim_eval_fun K (TLong ix) (tfin K core) (tfin K bound).
  Proof.
    intros Hc. unfold slim_eval_fun. cbv zeta.
    change (tin_shp (X := xnum K) (TLong (wrap d ix))) with (tin_shp (X := xnum K) (TLong ix)).
    change (tin_shp (tin_trans01 K (TLong (wrap d ix)))) with (tin_shp (tin_trans01 K (TLong ix))).
    match goal with |- ?l = ?r => match l with context [rfold ?f ?s ?q] => match r with context [rfold ?g _ _] => assert (E : rfold f s q = rfold g s q) end end end.
    { f_equal. extensionality st. extensionality t. f_equal.
      cbn [tin_trans01 tin_sel0]. unfold slim_slice. destruct (_ =? 3); [reflexivity|].
      apply gather0_wrap_sel. unfold ndim. cbn [tfin tmap shp]. rewrite Hc. destruct uniform; cbn [List.length Nat.eqb sel0 tfin tmap shp tl hd]; rewrite Hc; reflexivity. }
    rewrite E. reflexivity.
  Qed.

  (** *** broadcasting feature vectors *)
  Lemma fits_bdim a b : fits a b = true -> bdim a b = Some (if a =? 1 then b else a).
  Proof.
    unfold fits, bdim. destruct (Nat.eqb_spec a b) as [->|Hab].
    - intros _. destruct (Nat.eqb_spec b 1); subst; reflexivity.
    - destruct (Nat.eqb_spec a 1); [reflexivity|]. cbn [orb]. intros ->. reflexivity.
  Qed.
  Lemma fits_no a b : fits a b = false -> bdim a b = None.
  Proof.
    unfold fits, bdim. destruct (a =? b), (a =? 1), (b =? 1); cbn; congruence.
  Qed.
  Lemma einsum_unif (v c : tensor XK) B n f d D : shp v = [B; n; f] -> shp c = [d; D; D] -> 
    (fits f d = true -> exists t, einsum (S := XK) "bti,ide->btde" [v; c] = Ok t /\ shp t = [B; n; D; D] /\
       forall x p y z, x < B -> p < n -> y < D -> z < D ->
        get t [x; p; y; z] = bsum (S := XK) (if f =? 1 then d else f) (fun k => smul (s := XK) (get v [x; p; at1 f k]) (get c [at1 d k; y; z]))) /\
    (fits f d = false -> einsum (S := XK) "bti,ide->btde" [v; c] = Err RuntimeError).
  Proof.
    intros Hv Hc. split; intros Hf.
    - apply fits_bdim in Hf. eins_open. rewrite Hf. cbn [add_labels elook Ascii.eqb Bool.eqb app eset add_ops mapopt inlabels existsb filter fst snd negb orb andb].
      rewrite ?bdim_refl. cbn [add_labels elook Ascii.eqb Bool.eqb app eset add_ops mapopt inlabels existsb filter fst snd negb orb andb].
      eexists. split; [reflexivity|]. split; [reflexivity|]. intros. eins_get. eins_sum. rewrite !(bidx_valid D) by assumption. reflexivity.
    - apply fits_no in Hf. eins_open. rewrite Hf. reflexivity.
  Qed.
  Lemma einsum_fixed (v c : tensor XK) B n' n f d D : shp v = [B; n'; f] -> shp c = [n; d; D; D] ->
    (fits n' n && fits f d = true -> exists t, einsum (S := XK) "bti,tide->btde" [v; c] = Ok t /\ shp t = [B; (if n' =? 1 then n else n'); D; D] /\
       forall x p y z, x < B -> p < (if n' =? 1 then n else n') -> y < D -> z < D ->
        get t [x; p; y; z] = bsum (S := XK) (if f =? 1 then d else f) (fun k => smul (s := XK) (get v [x; at1 n' p; at1 f k]) (get c [at1 n p; at1 d k; y; z]))) /\
    (fits n' n && fits f d = false -> einsum (S := XK) "bti,tide->btde" [v; c] = Err RuntimeError).
  Proof.
    intros Hv Hc. split; intros Hf.
    - apply andb_true_iff in Hf as [Hn Hf]. apply fits_bdim in Hf. apply fits_bdim in Hn. eins_open. rewrite Hn.
      cbn [add_labels elook Ascii.eqb Bool.eqb app eset add_ops mapopt inlabels existsb filter fst snd negb orb andb]. rewrite Hf.
      cbn [add_labels elook Ascii.eqb Bool.eqb app eset add_ops mapopt inlabels existsb filter fst snd negb orb andb].
      eexists. split; [reflexivity|]. split; [reflexivity|]. intros. eins_get. eins_sum. rewrite !(bidx_valid D), ?(bidx_valid B) by assumption. reflexivity.
    - apply andb_false_iff in Hf as [Hn|Hf].
      + apply fits_no in Hn. eins_open. rewrite Hn. reflexivity.
      + apply fits_no in Hf. eins_open. destruct (bdim n' n); [|reflexivity].
        cbn [add_labels elook Ascii.eqb Bool.eqb app eset add_ops mapopt inlabels existsb filter fst snd negb orb andb]. rewrite Hf. reflexivity.
  Qed.

  (** *** selecting the matrices *)
  Lemma letter_range d z : letter_ok d z = in_range d z. Proof. reflexivity. Qed.
  Lemma forall_letters (ix : tensor Z) (p : nat -> Z -> bool) B n' :
    forallb (fun b => forallb (fun t => p t (get ix [b; t])) (seq 0 n')) (seq 0 B) = true <->
    forall b t, b < B -> t < n' -> p t (get ix [b; t]) = true.
  Proof.
    rewrite forallb_forall. split.
    - intros H b t Hb Ht. specialize (H b ltac:(apply in_seq; lia)). rewrite forallb_forall in H. apply H. apply in_seq. lia.
    - intros H b Hb. apply forallb_forall. intros t Ht. apply in_seq in Hb, Ht. apply H; lia.
  Qed.
  Lemma forall_idx (ix : tensor Z) (q : list nat -> bool) B n' : shp ix = [B; n'] ->
    forallb q (all_idx (shp ix)) = true <-> forall b t, b < B -> t < n' -> q [b; t] = true.
  Proof.
    intros Hs. rewrite forallb_forall. split.
    - intros H b t Hb Ht. apply H. apply all_idx_spec. rewrite Hs. apply valid_2. auto.
    - intros H i Hi. apply all_idx_spec in Hi. rewrite Hs in Hi. apply (valid_app2_inv []) in Hi as (l & b & t & -> & Hl & Hb & Ht).
      apply valid_nil in Hl. subst. apply H; assumption.
  Qed.
  Lemma same_bool a b : (a = true <-> b = true) -> a = b.
  Proof. destruct a, b; intros H; try reflexivity; [symmetry|]; apply H; reflexivity. Qed.
  Lemma modes2 (x : tin K) : x_modes x = 2 -> tin_shp x = [x_rows x; x_len x].
  Proof. unfold x_modes, x_rows, x_len. destruct (tin_shp x) as [|a [|b [|c l]]]; cbn; intros H; congruence. Qed.
  Lemma modes3 (x : tin K) : x_modes x = 3 -> tin_shp x = [x_rows x; x_len x; x_feat x].
  Proof. unfold x_modes, x_rows, x_len, x_feat. destruct (tin_shp x) as [|a [|b [|c [|e l]]]]; cbn; intros H; congruence. Qed.
  Lemma fin_shp (x : tin K) : tin_shp (tin_fin K x) = tin_shp x. Proof. destruct x; reflexivity. Qed.

  Lemma slices_any (core : tensor K) (uniform : bool) (n d D : nat) (x : tin K) :
    shp core = (if uniform then [d; D; D] else [n; d; D; D]) -> x_modes x = 2 \/ x_modes x = 3 ->
    match unreadable uniform n d x with
    | None => exists T, get_mat_slices K (tin_fin K x) (tfin K core) = Ok T /\
        shp T = [x_rows x; used_len uniform n x; D; D] /\
        forall b t i j, b < x_rows x -> t < used_len uniform n x -> i < D -> j < D ->
          get T [b; t; i; j] = Fin (used_site core uniform n d x b t i j)
    | Some e => get_mat_slices K (tin_fin K x) (tfin K core) = Err e
    end.
  Proof.
    intros Hc Hm. unfold get_mat_slices.
    assert (Hcd : ndim (tfin K core) = if uniform then 3 else 4).
    { unfold ndim. cbn [tfin tmap shp]. rewrite Hc. destruct uniform; reflexivity. }
    assert (Hcs : shp (tfin K core) = (if uniform then [d; D; D] else [n; d; D; D])) by exact Hc.
    rewrite Hcd, fin_shp. fold (x_modes x).
    assert (E1 : (x_modes x =? 2) || (x_modes x =? 3) = true) by (destruct Hm as [-> | ->]; reflexivity).
    assert (E2 : ((if uniform then 3 else 4) =? 3) || ((if uniform then 3 else 4) =? 4) = true) by (destruct uniform; reflexivity).
    assert (E3 : ((if uniform then 3 else 4) =? 3) = uniform) by (destruct uniform; reflexivity).
    rewrite E1, E2, E3. cbn [assert_ rbind]. unfold unreadable.
    destruct Hm as [Hm|Hm]; rewrite Hm; cbn [Nat.eqb]; destruct x as [ix|v]; cbn [tin_fin].
    - pose proof (modes2 _ Hm) as Hs. cbn [tin_shp] in Hs. set (B := x_rows (TLong ix)) in *. set (L := x_len (TLong ix)) in *.
      rewrite (same_bool _ (if uniform then tall (in_range d) ix else forallb (fun i => (nth 1 i 0 <? n) && in_range d (get ix i)) (all_idx (shp ix)))).
      2:{ rewrite (forall_letters ix (fun t z => letter_ok d z && (uniform || (t <? n)))). destruct uniform.
          - unfold tall. rewrite (forall_idx ix _ B L Hs). cbn [orb]. split; intros H b t Hb Ht; specialize (H b t Hb Ht); rewrite letter_range, ?andb_true_r in *; exact H.
          - rewrite (forall_idx ix _ B L Hs). cbn [orb nth]. split; intros H b t Hb Ht; specialize (H b t Hb Ht); rewrite letter_range in *; rewrite andb_comm; exact H. }
      destruct uniform.
      + unfold gather0. rewrite Hcs. cbn [hd tl]. destruct (tall (in_range d) ix) eqn:Et; [|reflexivity].
        eexists. split; [reflexivity|]. split; [cbn [shp]; rewrite Hs; reflexivity|]. intros b t i j Hb Ht Hi Hj. cbn [get].
        unfold ndim. rewrite Hs. cbn [List.length firstn skipn used_site].
        unfold tall in Et. rewrite (forall_idx ix _ B L Hs) in Et. specialize (Et b t Hb Ht).
        rewrite (pyidx_mod d _ Et). reflexivity.
      + unfold gather01. rewrite Hcs. destruct (forallb _ _) eqn:Et; [|reflexivity].
        eexists. split; [reflexivity|]. split; [cbn [shp]; rewrite Hs; reflexivity|]. intros b t i j Hb Ht Hi Hj. cbn [get nth firstn skipn used_site].
        rewrite (forall_idx ix _ B L Hs) in Et. specialize (Et b t Hb Ht). apply andb_true_iff in Et as [_ Et].
        rewrite (pyidx_mod d _ Et). reflexivity.
    - reflexivity.
    - reflexivity.
    - pose proof (modes3 _ Hm) as Hs. cbn [tin_shp] in Hs. set (B := x_rows (TFloat v)) in *. set (L := x_len (TFloat v)) in *.
      set (f := x_feat (TFloat v)) in *. assert (Hs' : shp (tfin K v) = [B; L; f]) by exact Hs.
      cbn [used_len used_site]. fold L f. destruct uniform.
      + destruct (einsum_unif (tfin K v) (tfin K core) B L f d D Hs' Hcs) as [H1 H2]. cbn [orb andb].
        destruct (fits f d); [|apply H2; reflexivity]. destruct (H1 eq_refl) as (T & E & HT & GT).
        exists T. split; [exact E|]. split; [exact HT|]. intros b t i j Hb Ht Hi Hj. rewrite GT by assumption.
        apply bsum_xfin. intros k Hk. cbn [entry]. unfold at1 at 3. destruct (Nat.eqb_spec L 1) as [->|]; [|reflexivity].
        replace t with 0 by lia. reflexivity.
      + destruct (einsum_fixed (tfin K v) (tfin K core) B L n f d D Hs' Hcs) as [H1 H2]. cbn [orb].
        destruct (fits L n && fits f d); [|apply H2; reflexivity]. destruct (H1 eq_refl) as (T & E & HT & GT).
        exists T. split; [exact E|]. split; [exact HT|]. intros b t i j Hb Ht Hi Hj. rewrite GT by assumption.
        apply bsum_xfin. intros k Hk. reflexivity.
  Qed.

  (** *** slim_eval_fun *)
  Definition slim_body (x : tin (xnum K)) (core : tensor K) (uniform vec : bool) (D : nat) (st : tensor xreal * tensor (xnum K)) (t : nat) :=
    let* mats := slim_slice K (tin_sel0 K (tin_trans01 K x) t) (if uniform then tfin K core else sel0 (tfin K core) t) vec in
    slim_step K D st mats.
  Definition slim_start (bound : tensor K) (B : nat) : tensor xreal * tensor (xnum K) :=
    (tconst [B] (XFin 0), unsq_front 2 (sel0 (tfin K bound) 0)).
  Lemma slim_open (x : tin K) (core bound : tensor K) (uniform : bool) (n d D : nat) :
    shp core = (if uniform then [d; D; D] else [n; d; D; D]) -> shp bound = [2; D] ->
    x_modes x = 2 \/ x_modes x = 3 ->
    if (uniform || (x_len x =? n)) && ((x_modes x =? 2) || (x_feat x =? d)) then
      exists cont, slim_eval_fun K (tin_fin K x) (tfin K core) (tfin K bound) =
        rbind (rfold (slim_body (tin_fin K x) core uniform (x_modes x =? 3) D) (slim_start bound (x_rows x)) (seq 0 (x_len x))) cont
    else slim_eval_fun K (tin_fin K x) (tfin K core) (tfin K bound) = Err AssertionError.
  Proof.
    intros Hc Hbd Hm. unfold slim_eval_fun.
    assert (Hsh : tin_shp (tin_trans01 K (tin_fin K x)) = swap01 (tin_shp x)).
    { destruct x; reflexivity. }
    assert (Hl : List.length (tin_shp (tin_fin K x)) <? 2 = false).
    { rewrite fin_shp. fold (x_modes x). destruct Hm as [-> | ->]; reflexivity. }
    rewrite Hl. cbv zeta. rewrite Hsh.
    assert (Hcd : ndim (tfin K core) = if uniform then 3 else 4).
    { unfold ndim. cbn [tfin tmap shp]. rewrite Hc. destruct uniform; reflexivity. }
    assert (Hc0 : dimE 0 (shp (tfin K core)) = D).
    { cbn [tfin tmap shp]. rewrite Hc. destruct uniform; reflexivity. }
    assert (Hc2 : dimE 2 (shp (tfin K core)) = d).
    { cbn [tfin tmap shp]. rewrite Hc. destruct uniform; reflexivity. }
    assert (Hb2 : ndim (tfin K bound) = 2) by (unfold ndim; cbn [tfin tmap shp]; rewrite Hbd; reflexivity).
    assert (Hbs : shp (tfin K bound) = [2; D]) by exact Hbd.
    assert (Hcn : uniform = false -> nth 0 (shp (tfin K core)) 0 = n) by (intros ->; cbn [tfin tmap shp]; rewrite Hc; reflexivity).
    rewrite Hcd, Hc0, Hc2, Hb2, Hbs. change (dimE 0 [2; D]) with D. cbn [nth Nat.eqb assert_ rbind].
    rewrite Nat.eqb_refl.
    assert (E4 : (if uniform then 3 else 4) =? 3 = uniform) by (destruct uniform; reflexivity).
    assert (E5 : uniform || ((if uniform then 3 else 4) =? 4) = true) by (destruct uniform; reflexivity).
    rewrite E4, E5.
    destruct Hm as [Hm|Hm]; rewrite Hm; [pose proof (modes2 _ Hm) as Hs|pose proof (modes3 _ Hm) as Hs]; rewrite Hs;
      cbn [swap01 List.length Nat.eqb orb andb nth assert_ rbind]; rewrite ?andb_true_r.
    - destruct uniform; cbn [orb]; [eexists; reflexivity|]. rewrite (Hcn eq_refl), (Nat.eqb_sym n (x_len x)). cbn [orb].
      destruct (x_len x =? n); [eexists; reflexivity|reflexivity].
    - change (dimE 0 [x_len x; x_rows x; x_feat x]) with (x_feat x). destruct uniform.
      + cbn [orb andb rbind]. destruct (x_feat x =? d); [eexists; reflexivity|reflexivity].
      + rewrite (Hcn eq_refl), (Nat.eqb_sym n (x_len x)). cbn [orb]. destruct (x_len x =? n); [|reflexivity]. cbn [assert_ rbind andb].
        destruct (x_feat x =? d); [eexists; reflexivity|reflexivity].
  Qed.
  Lemma rfold_err {A B} (f : A -> B -> res A) a l t l' e a' :
    rfold f a l = Ok a' -> f a' t = Err e -> rfold f a (l ++ t :: l') = Err e.
  Proof. intros H He. rewrite rfold_app, H. cbn [rbind rfold]. rewrite He. reflexivity. Qed.
  (** the loop stops at the first time step with an unknown letter *)
  Lemma first_false (p : nat -> bool) n : forallb p (seq 0 n) = false -> exists t, t < n /\ p t = false /\ forall s, s < t -> p s = true.
  Proof.
    induction n as [|n IH]; [discriminate|]. rewrite seq_S, forallb_app. cbn [plus forallb]. rewrite andb_true_r.
    destruct (forallb p (seq 0 n)) eqn:E; cbn [andb].
    - intros Hp. exists n. split; [lia|]. split; [exact Hp|]. intros s Hs. rewrite forallb_forall in E. apply E, in_seq. lia.
    - intros _. destruct (IH eq_refl) as (t & Ht & H). exists t. split; [lia|exact H].
  Qed.
  Lemma slim_any (core edge : tensor K) (uniform : bool) (n d D : nat) (x : tin K) :
    shp core = (if uniform then [d; D; D] else [n; d; D; D]) -> shp edge = [2; D] -> 0 < D -> 0 < x_len x ->
    x_modes x = 2 \/ x_modes x = 3 -> uniform = true \/ x_len x = n -> x_modes x = 2 \/ x_feat x = d ->
    match unreadable uniform n d x with
    | None => exists P L, slim_eval_fun K (tin_fin K x) (tfin K core) (tfin K edge) = Ok (P, L) /\
        amps_ok K P L (x_rows x) (used_amp core edge None uniform n d D x) /\
        forall b, b < x_rows x -> (used_lost core edge None uniform n d D x true false b -> get P [b] = Bad) /\
          (~ used_lost core edge None uniform n d D x true false b -> get P [b] <> Bad)
    | Some e => slim_eval_fun K (tin_fin K x) (tfin K core) (tfin K edge) = Err e
    end.
  Proof.
    intros Hc Hed HD Hlen Hm Hu Hf.
    pose proof (slim_open x core edge uniform n d D Hc Hed Hm) as Ho.
    assert (Ec : (uniform || (x_len x =? n)) && ((x_modes x =? 2) || (x_feat x =? d)) = true).
    { apply andb_true_iff. split; apply orb_true_iff; [destruct Hu as [->|Hu]|destruct Hf as [->|Hf]]; auto; right; apply Nat.eqb_eq; assumption. }
    rewrite Ec in Ho. destruct Ho as [cont Ho].
    assert (Hseq : seq 0 (x_len x) = [] ++ 0 :: seq 1 (x_len x - 1)).
    { destruct (x_len x) as [|k]; [lia|]. cbn [seq app]. f_equal. f_equal. lia. }
    (** the value once the input is known to be of the right form *)
    assert (Hgood : forall x' : tin K, wf_input x' (x_rows x) (x_len x) d ->
      slim_eval_fun K (tin_fin K x') (tfin K core) (tfin K edge) = slim_eval_fun K (tin_fin K x) (tfin K core) (tfin K edge) ->
      (forall b t i j, b < x_rows x -> t < x_len x -> i < D -> j < D -> site_mat K core uniform x' d b t i j = used_site core uniform n d x b t i j) ->
      used_len uniform n x = x_len x ->
      exists P L, slim_eval_fun K (tin_fin K x) (tfin K core) (tfin K edge) = Ok (P, L) /\
        amps_ok K P L (x_rows x) (used_amp core edge None uniform n d D x) /\
        forall b, b < x_rows x -> (used_lost core edge None uniform n d D x true false b -> get P [b] = Bad) /\
          (~ used_lost core edge None uniform n d D x true false b -> get P [b] <> Bad)).
    { intros x' Hx Heq Hsite Hul.
      assert (Hc' : shp core = (if uniform then [d; D; D] else [x_len x; d; D; D])).
      { destruct uniform; [exact Hc|]. destruct Hu as [Hu|Hu]; [discriminate|]. rewrite Hu. exact Hc. }
      destruct (slim_eval_ok K x' core edge uniform (x_rows x) (x_len x) d D Hx Hc' Hed HD Hlen) as (P & L & E & HP & HL & H).
      assert (HM : forall b, b < x_rows x -> forall i j, i < D -> j < D ->
        chain (fchain K D (x_len x) (site_mat K core uniform x' d b)) i j = chain (used_row core None uniform n d D x b) i j).
      { intros b Hb i j Hi Hj. unfold used_row. rewrite Hul. apply (fchain_ext K D (x_len x)); [|exact Hi|exact Hj].
        intros t i' j' Ht Hi' Hj'. cbn [bias_at]. rewrite Hsite by assumption. ring. }
      assert (Hlp : forall b, b < x_rows x ->
        (forall j, j < D -> lprod K D (x_len x) (fun i => get edge [0; i]) (site_mat K core uniform x' d b) j = s0) <->
        used_lost core edge None uniform n d D x true false b).
      { intros b Hb. unfold used_lost, lprod, vmul. split; intros Hz j Hj; rewrite <- (Hz j Hj); apply bsum_ext; intros i Hi; f_equal;
          [symmetry|]; apply HM; assumption. }
      exists P, L. split; [rewrite <- Heq; exact E|]. split.
      - split; [exact HP|]. split; [exact HL|]. intros b Hb. destruct (H b Hb) as [[(s & c & Hs & Hcc & Hv)|[Hbad Hz]] _].
        + left. exists s, c. split; [exact Hs|]. split; [exact Hcc|]. rewrite Hv. unfold used_amp.
          apply sandwich_ext; [reflexivity|reflexivity|]. apply HM, Hb.
        + right. split; [exact Hbad|]. apply (Hlp b Hb) in Hz. unfold used_amp. unfold used_lost in Hz.
          unfold sandwich. rewrite bsum_swap. apply bsum_zero. intros j Hj. specialize (Hz j Hj). unfold vmul in Hz.
          transitivity (smul (s := K) (bsum D (fun i => smul (edge_at edge 0 i) (chain (used_row core None uniform n d D x b) i j))) (edge_at edge 1 j));
            [rewrite <- bsum_mul_r; apply bsum_ext; intros; ring|rewrite Hz; ring].
      - intros b Hb. destruct (H b Hb) as [H1 H2]. split; intros Hz.
        + apply H2, Hlp, Hz; exact Hb.
        + destruct H1 as [(s & c & _ & Hcc & _)|[_ Hz']]; [congruence|]. elim Hz. apply Hlp; assumption. }
    unfold unreadable. destruct Hm as [Hm|Hm]; rewrite Hm in *; cbn [Nat.eqb] in *; destruct x as [ix|v].
    - pose proof (modes2 _ Hm) as Hs. cbn [tin_shp] in Hs. set (B := x_rows (TLong ix)) in *. set (L := x_len (TLong ix)) in *.
      destruct (forallb _ (seq 0 B)) eqn:El.
      + rewrite (forall_letters ix (fun t z => letter_ok d z && (uniform || (t <? n)))) in El.
        assert (Hr : forall b t, b < B -> t < L -> in_range d (get ix [b; t]) = true).
        { intros b t Hb Ht. specialize (El b t Hb Ht). apply andb_true_iff in El as [El _]. exact El. }
        apply (Hgood (TLong (wrap d ix))).
        * split; [exact Hs|]. intros b t Hb Ht. cbn [wrap get]. rewrite (Hr b t Hb Ht). pose proof (pyidx_lt d _ (Hr b t Hb Ht)). lia.
        * exact (slim_wrap ix core edge uniform n d D Hc).
        * intros b t i j Hb Ht Hi Hj. cbn [used_site]. unfold site_mat, slice_at. cbn [wrap get]. rewrite (Hr b t Hb Ht), Nat2Z.id, (pyidx_mod d _ (Hr b t Hb Ht)). reflexivity.
        * reflexivity.
      + assert (El' : forallb (fun t => forallb (fun b => letter_ok d (get ix [b; t]) && (uniform || (t <? n))) (seq 0 B)) (seq 0 L) = false).
        { rewrite <- El. apply same_bool. rewrite (forall_letters ix (fun t z => letter_ok d z && (uniform || (t <? n)))).
          rewrite forallb_forall. split.
          - intros H b t Hb Ht. specialize (H t ltac:(apply in_seq; lia)). rewrite forallb_forall in H. apply H, in_seq. lia.
          - intros H t Ht. apply forallb_forall. intros b Hb. apply in_seq in Hb, Ht. apply H; lia. }
        apply first_false in El' as (t & Ht & Hbad & Hok). clear El Hgood.
        assert (Hcs : forall s, shp (if uniform then tfin K core else sel0 (tfin K core) s) = [d; D; D]).
        { intros s. destruct uniform; cbn [tfin tmap sel0 shp]; rewrite Hc; reflexivity. }
        assert (Hslice : forall s, s < L -> slim_slice K (tin_sel0 K (tin_trans01 K (tin_fin K (TLong ix))) s)
             (if uniform then tfin K core else sel0 (tfin K core) s) false =
             if forallb (fun b => letter_ok d (get ix [b; s]) && (uniform || (s <? n))) (seq 0 B)
             then slim_slice K (tin_sel0 K (tin_trans01 K (tin_fin K (TLong ix))) s)
             (if uniform then tfin K core else sel0 (tfin K core) s) false else Err IndexError).
        { intros s Hsl. destruct (forallb (fun b => letter_ok d (get ix [b; s]) && (uniform || (s <? n))) (seq 0 B)) eqn:Es; [reflexivity|]. cbn [tin_fin tin_trans01 tin_sel0 slim_slice]. unfold gather0.
          rewrite Hcs. cbn [hd]. replace (tall (in_range d) (sel0 (trans01 ix) s)) with false; [reflexivity|].
          rewrite <- Es. apply same_bool. rewrite tall_spec. cbn [sel0 trans01 shp get]. rewrite Hs. cbn [swap01 tl].
          rewrite forallb_forall. split.
          - intros H i Hi. apply valid_cons in Hi as (b & r & -> & Hb & Hr). apply valid_nil in Hr. subst. cbn [swap01].
            specialize (H b ltac:(apply in_seq; lia)). apply andb_true_iff in H as [H _]. exact H.
          - intros H b Hb. apply in_seq in Hb. rewrite letter_range. specialize (H [b] ltac:(apply valid_1; lia)). cbn [swap01] in H. rewrite H.
            cbn [andb]. destruct Hu as [->|Hu]; [reflexivity|]. apply orb_true_iff. right. apply Nat.ltb_lt. unfold L in Hsl. lia. }
        destruct (slim_loop_ok K B D t (fun i => get edge [0; i]) (unsq_front 2 (sel0 (tfin K edge) 0))
           (fun s => slim_slice K (tin_sel0 K (tin_trans01 K (tin_fin K (TLong ix))) s)
                   (if uniform then tfin K core else sel0 (tfin K core) s) false)
           (fun b s i j => entry core uniform s (pyidx d (get ix [b; s])) i j)) as (P & L0 & b0 & E & _).
        * exact HD.
        * cbn [unsq_front sel0 shp tfin tmap]. rewrite Hed. reflexivity.
        * intros j Hj. reflexivity.
        * intros s Hsl. specialize (Hok s Hsl). rewrite forallb_forall in Hok.
          cbn [tin_fin tin_trans01 tin_sel0 slim_slice]. unfold gather0. rewrite Hcs. cbn [hd tl].
          assert (Ha : tall (in_range d) (sel0 (trans01 ix) s) = true).
          { rewrite tall_spec. cbn [sel0 trans01 shp get]. rewrite Hs. cbn [swap01 tl]. intros i Hi.
            apply valid_cons in Hi as (b & r & -> & Hb & Hr). apply valid_nil in Hr. subst. cbn [swap01].
            specialize (Hok b ltac:(apply in_seq; lia)). apply andb_true_iff in Hok as [Hok _]. exact Hok. }
          rewrite Ha. assert (Hs1 : shp (sel0 (trans01 ix) s) = [B]) by (cbn [sel0 trans01 shp]; rewrite Hs; reflexivity).
          eexists. split; [reflexivity|]. split; [cbn [shp]; rewrite Hs1; reflexivity|]. intros b i j Hb Hi Hj. cbn [get].
          unfold ndim. rewrite Hs1. cbn [List.length firstn skipn sel0 trans01 get swap01]. destruct uniform; reflexivity.
        * rewrite Ho. replace (seq 0 L) with (seq 0 t ++ t :: seq (S t) (L - S t)).
          2:{ replace L with (t + (1 + (L - S t))) at 2 by lia. rewrite !seq_app. cbn [seq app]. rewrite Nat.add_0_l. f_equal. f_equal. f_equal. lia. }
          erewrite rfold_err; [reflexivity|exact E|]. unfold slim_body. rewrite (Hslice t Ht), Hbad. reflexivity.
    - rewrite Ho, Hseq. erewrite rfold_err; [reflexivity|reflexivity|]. reflexivity.
    - rewrite Ho, Hseq. erewrite rfold_err; [reflexivity|reflexivity|]. reflexivity.
    - pose proof (modes3 _ Hm) as Hs. cbn [tin_shp] in Hs. destruct Hf as [Hf|Hf]; [lia|].
      assert (Ef : (uniform || fits (x_len (TFloat v)) n) && fits (x_feat (TFloat v)) d = true).
      { rewrite Hf. unfold fits at 2. rewrite Nat.eqb_refl. rewrite andb_true_r. destruct Hu as [->|Hu]; [reflexivity|].
        unfold fits. rewrite Hu, Nat.eqb_refl. apply orb_true_r. }
      rewrite Ef. assert (Hul : used_len uniform n (TFloat v) = x_len (TFloat v)).
      { cbn [used_len]. destruct uniform; [reflexivity|]. destruct (Nat.eqb_spec (x_len (TFloat v)) 1) as [E1|]; [|reflexivity].
        destruct Hu as [Hu|Hu]; [discriminate|]. congruence. }
      apply (Hgood (TFloat v)).
      + cbn [wf_input]. rewrite Hs, Hf. reflexivity.
      + reflexivity.
      + intros b t i j Hb Ht Hi Hj. cbn [used_site]. rewrite Hf. unfold site_mat, slice_at.
        replace (if d =? 1 then d else d) with d by (destruct (d =? 1); reflexivity). apply bsum_ext. intros k Hk.
        rewrite (bidx_valid (x_len (TFloat v)) t Ht : at1 _ _ = _), (bidx_valid d k Hk : at1 _ _ = _).
        f_equal. unfold entry, core_at. destruct uniform; [reflexivity|]. destruct Hu as [Hu|Hu]; [discriminate|].
        rewrite (bidx_valid n t ltac:(lia) : at1 _ _ = _). reflexivity.
      + exact Hul.
  Qed.

  Definition has_bias (m : pmps K) : bool := match pm_bias K m with Some _ => true | None => false end.
  Lemma amplitudes_any (uniform : bool) (m : pmps K) (x : tin K) (slim par : bool) (n d D : nat) :
    shapes_of K uniform m n d D -> (slim = true -> uniform = true -> 0 < x_len x) -> (uniform = true -> 2 <= x_modes x) ->
    match rejection uniform (has_bias m) slim n d x with
    | Some e => amplitudes K uniform m x slim par = Err e
    | None => exists P L, amplitudes K uniform m x slim par = Ok (P, L) /\
        amps_ok K P L (x_rows x) (used_amp (pm_core K m) (pm_edge K m) (pm_bias K m) uniform n d D x) /\
        forall b, b < x_rows x ->
          let lost := used_lost (pm_core K m) (pm_edge K m) (pm_bias K m) uniform n d D x slim par b in
          (lost -> get P [b] = Bad) /\ (~ lost -> get P [b] <> Bad)
    end.
  Proof.
    intros Hsh Hl0 Hu2. destruct (shapes_get _ _ _ _ _ _ Hsh) as (Hd & HD & Hc & He & Hb).
    unfold rejection, amplitudes.
    assert (E1 : uniform && (x_modes x <? 2) = false).
    { destruct uniform; [|reflexivity]. cbn [andb]. apply Nat.ltb_ge, Hu2. reflexivity. }
    rewrite E1. destruct slim; cbn [andb].
    - unfold has_bias. destruct (pm_bias K m) eqn:Eb; [reflexivity|].
      destruct (Nat.ltb_spec (x_modes x) 2) as [Hm2|Hm2].
      { unfold slim_eval_fun. rewrite fin_shp. fold (x_modes x). apply Nat.ltb_lt in Hm2. rewrite Hm2. reflexivity. }
      destruct ((x_modes x =? 2) || (x_modes x =? 3)) eqn:Em; cbn [negb].
      2:{ unfold slim_eval_fun. rewrite fin_shp. fold (x_modes x). apply Nat.ltb_ge in Hm2. rewrite Hm2. cbv zeta.
          assert (Hsh' : List.length (tin_shp (tin_trans01 K (tin_fin K x))) = x_modes x).
          { unfold x_modes. destruct x as [t|t]; cbn [tin_fin tin_trans01 tin_shp trans01 tfin tmap shp]; destruct (shp t) as [|? [|]]; reflexivity. }
          rewrite Hsh', Em. unfold ndim. cbn [tfin tmap shp]. rewrite He. reflexivity. }
      assert (Hm : x_modes x = 2 \/ x_modes x = 3).
      { apply orb_true_iff in Em as [Em|Em]; apply Nat.eqb_eq in Em; auto. }
      pose proof (slim_open x (pm_core K m) (pm_edge K m) uniform n d D Hc He Hm) as Ho.
      destruct (negb uniform && negb (x_len x =? n)) eqn:En.
      { replace ((uniform || (x_len x =? n)) && ((x_modes x =? 2) || (x_feat x =? d))) with false in Ho; [exact Ho|].
        destruct uniform, (x_len x =? n); try discriminate En; reflexivity. }
      destruct ((x_modes x =? 3) && negb (x_feat x =? d)) eqn:Ef.
      { replace ((uniform || (x_len x =? n)) && ((x_modes x =? 2) || (x_feat x =? d))) with false in Ho; [exact Ho|].
        apply andb_true_iff in Ef as [E3 Ef]. apply Nat.eqb_eq in E3. rewrite E3. apply negb_true_iff in Ef. rewrite Ef.
        rewrite andb_false_r. reflexivity. }
      assert (Hu : uniform = true \/ x_len x = n).
      { destruct uniform; [auto|]. right. apply Nat.eqb_eq. destruct (x_len x =? n); [reflexivity|discriminate En]. }
      assert (Hf : x_modes x = 2 \/ x_feat x = d).
      { destruct Hm as [Hm|Hm]; [auto|]. right. rewrite Hm in Ef. apply Nat.eqb_eq. destruct (x_feat x =? d); [reflexivity|discriminate Ef]. }
      assert (Hlen : 0 < x_len x).
      { destruct uniform; [apply Hl0; reflexivity|]. destruct Hu as [Hu|Hu]; [discriminate|]. rewrite Hu. destruct Hsh as [Hsh _]. exact Hsh. }
      pose proof (slim_any (pm_core K m) (pm_edge K m) uniform n d D x Hc He HD Hlen Hm Hu Hf) as H.
      exact H.
    - assert (Eg : (x_modes x =? 2) || (x_modes x =? 3) = false -> get_mat_slices K (tin_fin K x) (tfin K (pm_core K m)) = Err AssertionError).
      { intros Em. unfold get_mat_slices. rewrite fin_shp. fold (x_modes x). rewrite Em. reflexivity. }
      destruct ((x_modes x =? 2) || (x_modes x =? 3)) eqn:Em; cbn [negb].
      2:{ rewrite (Eg eq_refl). reflexivity. }
      assert (Hm : x_modes x = 2 \/ x_modes x = 3).
      { apply orb_true_iff in Em as [Em|Em]; apply Nat.eqb_eq in Em; auto. }
      pose proof (slices_any (pm_core K m) uniform n d D x Hc Hm) as Hs.
      destruct (unreadable uniform n d x) as [e|]; [rewrite Hs; reflexivity|].
      destruct Hs as (T & ET & HT & GT). rewrite ET. cbn [rbind].
      exact (mats_ok K T (pm_edge K m) (pm_bias K m) uniform par _ _ D (used_site (pm_core K m) uniform n d x) HT GT He Hb HD).
  Qed.

  (** C91: forward of ProbMPS and ProbUnifMPS without embedding, for EVERY input tensor (any
      number of modes, any sizes, any letters) in every evaluation mode: which inputs are rejected
      and with which exception, and for accepted ones what each row gives. *)
  Theorem C91_every_input (uniform : bool) (m : pmps K) (x : tin K) (slim par : bool) (n d D : nat) :
    shapes_of K uniform m n d D -> pm_emb K m = None ->
    (slim = true -> uniform = true -> 0 < x_len x) ->
    match rejection uniform (has_bias m) slim n d x with
    | Some e => snd (fwd K uniform m x slim par) = Err e
    | None =>
        let Zn := Zfun K uniform m (if uniform then x_len x else n) d D in
        let amp := used_amp (pm_core K m) (pm_edge K m) (pm_bias K m) uniform n d D x in
        let lost := used_lost (pm_core K m) (pm_edge K m) (pm_bias K m) uniform n d D x slim par in
        match snd (fwd K uniform m x slim par) with
        | Ok T => (0 < Zn)%R /\ (forall b, b < x_rows x -> ~ lost b) /\ shp T = [x_rows x] /\
            forall b, b < x_rows x ->
              (amp b = s0 -> get T [b] = XNInf) /\ (amp b <> s0 -> get T [b] = XFin (ln (abs2 (amp b) / Zn)))
        | Err er => er = AssertionError /\ (Zn = 0%R \/ exists b, b < x_rows x /\ lost b)
        end
    end.
  Proof.
    intros Hsh Hemb Hl0. destruct (shapes_get _ _ _ _ _ _ Hsh) as (Hd & HD & Hc & He & Hb).
    destruct (uniform && (x_modes x <? 2)) eqn:E0.
    { unfold rejection. rewrite E0. apply andb_true_iff in E0 as [-> E0]. apply Nat.ltb_lt in E0.
      cbn [fwd]. unfold forward_unif. unfold x_modes in E0. destruct (tin_shp x) as [|a [|b l]]; cbn in E0; try lia; reflexivity. }
    assert (Hu2 : uniform = true -> 2 <= x_modes x).
    { intros ->. cbn [andb] in E0. apply Nat.ltb_ge. exact E0. }
    pose proof (amplitudes_any uniform m x slim par n d D Hsh Hl0 Hu2) as HA.
    set (N := if uniform then x_len x else n).
    assert (Hc' : shp (pm_core K m) = (if uniform then [d; D; D] else [N; d; D; D])) by (unfold N; destruct uniform; exact Hc).
    destruct (biased_core K m uniform N d D Hc' Hb) as (c & Ec & Hcok).
    assert (Hf : exists lnr check, snd (fwd K uniform m x slim par) =
       (let* psi := amplitudes K uniform m x slim par in finish K psi lnr check) /\
       norm_ok lnr (Zfun K uniform m N d D) /\ forall up : tensor xreal, shp up = [x_rows x] -> check up = true).
    { destruct uniform; cbn [fwd].
      - assert (Hxs : exists r, tin_shp x = x_rows x :: x_len x :: r).
        { specialize (Hu2 eq_refl). unfold x_modes, x_rows, x_len in *. destruct (tin_shp x) as [|a [|b l]]; cbn in *; try lia. eauto. }
        destruct Hxs as (r & Hxs). unfold forward_unif. rewrite Hxs. unfold embed. rewrite Hemb. cbn [snd rbind].
        eexists. eexists. split; [reflexivity|]. split.
        + unfold log_norm_unif. rewrite Ec. cbn [rbind]. unfold lamb_of. rewrite Hemb. cbn [rbind].
          apply (get_log_norm_model K m true N); try assumption. left; reflexivity.
        + intros up Hup. rewrite Hup. apply list_eqb_refl.
      - unfold forward_fixed, embed. rewrite Hemb. cbn [snd rbind].
        eexists. eexists. split; [reflexivity|]. split.
        + unfold log_norm_fixed. rewrite Ec. cbn [rbind]. unfold lamb_of. rewrite Hemb. cbn [rbind].
          apply (get_log_norm_model K m false N); try assumption. right; split; reflexivity.
        + reflexivity. }
    destruct Hf as (lnr & check & Hfw & Hnorm & Hck). rewrite Hfw.
    destruct (rejection uniform (has_bias m) slim n d x) as [e|]; [rewrite HA; reflexivity|].
    destruct HA as (P & L & E & Ha & Hlost). rewrite E. intros Zn amp lost. cbn [rbind].
    pose proof (model_Z_nonneg K m uniform N d D : (0 <= Zn)%R) as HZ.
    apply (exact_match _ (x_rows x) Zn lost (fun T => shp T = [x_rows x] /\ forall b, b < x_rows x ->
              (amp b = s0 -> get T [b] = XNInf) /\ (amp b <> s0 -> get T [b] = XFin (ln (abs2 (amp b) / Zn)))) HZ).
    - intros T ET. pose proof (finish_ok K P L lnr check (x_rows x) amp Zn Ha Hnorm HZ Hck) as HF. rewrite ET in HF.
      destruct HF as (HZ' & HT & H). split; [exact HT|]. intros b Hb'. specialize (H b Hb'). split.
      + intros Hz. rewrite Hz, abs2_s0 in H. unfold Rdiv in H. rewrite Rmult_0_l in H.
        destruct H as [[H _]|[_ H]]; [lra|exact H].
      + intros Hz. apply (is_log_pos _ _ H). intros E'.
        apply Rmult_integral in E' as [E'|E']; [apply Hz, abs2_zero, E'|]. pose proof (Rinv_0_lt_compat _ HZ'). lra.
    - destruct (finish_exact K P L lnr check (x_rows x) amp Zn Ha Hnorm HZ Hck) as (H1 & H2 & H3).
      split; [|split; [|exact H3]].
      + intros HZ' Hl. apply H1; [exact HZ'|]. intros b Hb'. apply (Hlost b Hb'), Hl, Hb'.
      + intros (b & Hb' & Hz). apply H2. exists b. split; [exact Hb'|]. apply (Hlost b Hb'), Hz.
  Qed.

  Lemma wellformed_accepted (uniform : bool) (core edge : tensor K) (bias : option (tensor K)) (x : tin K) (slim : bool) (batch n d D b : nat) :
    wf_input x batch n d -> b < batch ->
    rejection uniform false slim n d x = None /\ rejection uniform true false n d x = None /\ x_rows x = batch /\ x_len x = n /\
    used_amp core edge bias uniform n d D x b = row_amp core edge bias uniform n d D x b.
  Proof.
    intros Hx Hb.
    assert (Hr : rejection uniform false slim n d x = None /\ rejection uniform true false n d x = None /\ x_rows x = batch /\ x_len x = n).
    { destruct x as [ix|v]; cbn [wf_input] in Hx.
      - destruct Hx as [Hs Hr]. unfold rejection, unreadable, x_modes, x_rows, x_len. cbn [tin_shp]. rewrite Hs. cbn [List.length Nat.ltb Nat.leb Nat.eqb nth orb negb andb].
        rewrite !Nat.eqb_refl. replace (forallb _ _) with true.
        2:{ symmetry. rewrite (forall_letters ix (fun t z => letter_ok d z && (uniform || (t <? n)))). intros b' t Hb' Ht. specialize (Hr b' t Hb' Ht).
            apply Nat.ltb_lt in Ht. rewrite Ht, orb_true_r, andb_true_r. unfold letter_ok. apply andb_true_iff. rewrite Z.leb_le, Z.ltb_lt. lia. }
        destruct uniform, slim; auto.
      - unfold rejection, unreadable, x_modes, x_rows, x_len, x_feat, fits. cbn [tin_shp]. rewrite Hx. cbn [List.length Nat.ltb Nat.leb Nat.eqb nth orb negb andb].
        rewrite !Nat.eqb_refl. destruct uniform, slim; auto. }
    destruct Hr as (H1 & H2 & H3 & H4). split; [exact H1|]. split; [exact H2|]. split; [exact H3|]. split; [exact H4|].
    rewrite row_amp_chain. unfold used_amp. apply sandwich_ext; [reflexivity|reflexivity|].
    assert (Hul : used_len uniform n x = n).
    { destruct x; cbn [used_len]; rewrite H4; [reflexivity|]. destruct uniform; [reflexivity|]. destruct (Nat.eqb_spec n 1); congruence. }
    unfold used_row. rewrite Hul. apply (fchain_ext K D n). intros t i j Ht Hi Hj. unfold row_site. f_equal.
    destruct x as [ix|v]; cbn [used_site wf_input] in *.
    - destruct Hx as [_ Hr]. specialize (Hr b t Hb Ht). rewrite Z.mod_small by exact Hr. unfold site_mat, slice_at. reflexivity.
    - assert (Hfd : x_feat (TFloat v) = d) by (unfold x_feat; cbn [tin_shp]; rewrite Hx; reflexivity).
      rewrite Hfd, H4. unfold site_mat, slice_at. replace (if d =? 1 then d else d) with d by (destruct (d =? 1); reflexivity).
      apply bsum_ext. intros k Hk. rewrite (bidx_valid n t Ht : at1 n t = t), (bidx_valid d k Hk : at1 d k = k). reflexivity.
  Qed.
  (** C91: well-formed inputs are never rejected for their shape or their letters (outside slim evaluation of a biased model), and the
      values are those of C08 and C10 *)
  Theorem C91_wellformed (uniform : bool) (m : pmps K) (x : tin K) (slim par : bool) (batch n d D : nat) :
    shapes_of K uniform m n d D -> pm_emb K m = None -> wf_input x batch n d -> 0 < batch -> 0 < n -> (slim = true -> pm_bias K m = None) ->
    match snd (fwd K uniform m x slim par) with
    | Ok T => (0 < Zfun K uniform m n d D)%R /\ shp T = [batch] /\ forall b, b < batch ->
        let amp := row_amp (pm_core K m) (pm_edge K m) (pm_bias K m) uniform n d D x b in
        (amp = s0 -> get T [b] = XNInf) /\ (amp <> s0 -> get T [b] = XFin (ln (abs2 amp / Zfun K uniform m n d D)))
    | Err er => er = AssertionError /\ (Zfun K uniform m n d D = 0%R \/
        exists b, b < batch /\ used_lost (pm_core K m) (pm_edge K m) (pm_bias K m) uniform n d D x slim par b)
    end.
  Proof.
    intros Hsh Hemb Hx Hbt Hn Hbias.
    destruct (wellformed_accepted uniform (pm_core K m) (pm_edge K m) (pm_bias K m) x slim batch n d D 0 Hx Hbt) as (R1 & R2 & R3 & R4 & _).
    pose proof (C91_every_input uniform m x slim par n d D Hsh Hemb ltac:(intros _ _; rewrite R4; exact Hn)) as H.
    assert (R : rejection uniform (has_bias m) slim n d x = None).
    { unfold has_bias. destruct (pm_bias K m) eqn:Eb; [|exact R1]. destruct slim; [discriminate (Hbias eq_refl)|exact R2]. }
    rewrite R in H. cbv zeta in H. rewrite R3, R4 in H. replace (if uniform then n else n) with n in H by (destruct uniform; reflexivity).
    destruct (snd (fwd K uniform m x slim par)) as [T|er]; [|exact H]. destruct H as (H1 & _ & H2 & H3). split; [exact H1|]. split; [exact H2|]. intros b Hb.
    destruct (wellformed_accepted uniform (pm_core K m) (pm_edge K m) (pm_bias K m) x slim batch n d D b Hx Hb) as (_ & _ & _ & _ & Ea).
    cbv zeta. rewrite <- Ea. apply H3. exact Hb.
  Qed.
End P.

Section Examples.
  (** inputs for the length-2, two-letter model [pe_m] of P_Prob *)
  Definition any_neg : tin R_num := TLong (mkT [1; 2] (fun i => if nth 1 i 0 =? 0 then (-1)%Z else (-2)%Z)).
  Definition any_short : tin R_num := TLong (mkT [3; 1] (fun i => 1%Z)).
  Definition any_long : tin R_num := TLong (mkT [3; 3] (fun i => 1%Z)).
  Definition any_big : tin R_num := TLong (mkT [1; 2] (fun i => 2%Z)).
  Definition any_one : tin R_num := TFloat (mkT [1; 1; 2] (fun i => INR (nth 2 i 0))).
  Definition any_flat : tin R_num := TFloat (mkT [1; 2; 1] (fun i => 1%R)).
  Definition any_four : tin R_num := TFloat (mkT [1; 2; 2; 2] (fun i => 1%R)).
  Example C91_verdicts :
    map (rejection false false false 2 2) [any_neg; any_short; any_long; any_big; any_one; any_flat; any_four]
      = [None; None; Some IndexError; Some IndexError; None; None; Some AssertionError] /\
    map (rejection false false true 2 2) [any_neg; any_short; any_long; any_big; any_one; any_flat; any_four]
      = [None; Some AssertionError; Some AssertionError; Some IndexError; Some AssertionError; Some AssertionError; Some AssertionError] /\
    map (rejection true true false 2 2) [any_neg; any_short; any_long; any_big; any_one; any_flat; any_four]
      = [None; None; None; Some IndexError; None; None; Some AssertionError].
  Proof. repeat split. Qed.
  Ltac psi_calc :=
    unfold psi, row_amp, amplitude, sandwich, pe_m, pe_mb, pe_u, pe_core4, pe_core3, pe_edge, pe_bias, edge_at, row_letters,
      letter_site, entry, bias_at, mmul;
    cbn -[INR]; unfold mmul; cbn -[INR]; rewrite !INR_IZR_INZ; cbn;
    try change (Pos.to_nat 1) with 1; cbn; try lra.
  Lemma any_Z : (0 < Zfun R_num false pe_m 2 2 2)%R.
  Proof. apply (psi_Z_pos R_num false pe_m pe_all 4 2 2 2 0 pe_wf); [lia|]. psi_calc. Qed.
  Ltac any_calc := unfold used_amp, used_row, used_site, used_len, x_len, x_feat, at1, any_neg, any_one, sandwich, pe_m, pe_core4, pe_edge,
    edge_at, entry, bias_at, mmul; cbn -[INR]; unfold mmul; cbn -[INR]; rewrite !INR_IZR_INZ; cbn; try change (Pos.to_nat 1) with 1; cbn.
  (** a row of negative letters, and a single vector used at both sites, get finite log probabilities *)
  Example C91_neg_returns : exists T, snd (fwd R_num false pe_m any_neg false false) = Ok T /\ exists l, get T [0] = XFin l.
  Proof.
    pose proof (C91_every_input R_num false pe_m any_neg false false 2 2 2 ltac:(cbn; repeat split; lia) eq_refl ltac:(discriminate)) as H.
    change (rejection false (has_bias R_num pe_m) false 2 2 any_neg) with (@None exn) in H. cbv zeta in H.
    assert (Ha : used_amp (pm_core R_num pe_m) (pm_edge R_num pe_m) (pm_bias R_num pe_m) false 2 2 2 any_neg 0 <> 0%R) by (any_calc; lra).
    destruct (snd (fwd R_num false pe_m any_neg false false)) as [T|e].
    - destruct H as (_ & _ & _ & H). exists T. split; [reflexivity|]. eexists. apply (H 0); [cbn; lia|exact Ha].
    - destruct H as [_ [H|(b & Hb & H)]]; [pose proof any_Z; lra|]. cbn in Hb. replace b with 0 in H by lia. elim Ha. exact H.
  Qed.
  Example C91_one_returns : exists T, snd (fwd R_num false pe_m any_one false true) = Ok T.
  Proof.
    pose proof (C91_every_input R_num false pe_m any_one false false 2 2 2 ltac:(cbn; repeat split; lia) eq_refl ltac:(discriminate)) as H.
    pose proof (C91_every_input R_num false pe_m any_one false true 2 2 2 ltac:(cbn; repeat split; lia) eq_refl ltac:(discriminate)) as H'.
    change (rejection false (has_bias R_num pe_m) false 2 2 any_one) with (@None exn) in H, H'. cbv zeta in H, H'. clear H.
    assert (Ha : used_amp (pm_core R_num pe_m) (pm_edge R_num pe_m) (pm_bias R_num pe_m) false 2 2 2 any_one 0 <> 0%R) by (any_calc; lra).
    destruct (snd (fwd R_num false pe_m any_one false true)) as [T|e]; [exists T; reflexivity|].
    destruct H' as [_ [H|(b & Hb & _ & H)]]; [pose proof any_Z; lra|]. cbn in Hb. replace b with 0 in H by lia. elim Ha.
    unfold used_amp, sandwich. cbn [bsum]. rewrite !H by lia. cbn. ring.
  Qed.
End Examples.
Print Assumptions C91_every_input.
Print Assumptions C91_wellformed.
