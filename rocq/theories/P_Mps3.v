(** * P_Mps3: properties C35-C37 and C60 (MPS without adaptive mode, continued) *)
From Verif Require Import Base Scalars Tensor Spec LinAlg Contractables ContrProofs Utils Utils2Proofs TorchMps TmSpec TmProofs TmFinal P_Mps P_Mps2.

Lemma Forall2_seq {A} (P : nat -> A -> Prop) n a l (d : A) : Forall2 P (seq a n) l -> List.length l = n /\ forall k, k < n -> P (a + k) (nth k l d).
Proof.
  revert a l. induction n as [|n IH]; intros a l H; inversion H; subst; [split; [reflexivity|lia]|].
  destruct (IH _ _ H4) as [E G]. split; [cbn; congruence|]. intros [|k] Hk; [rewrite Nat.add_0_r; assumption|].
  cbn [nth]. replace (a + Datatypes.S k) with (Datatypes.S a + k) by lia. apply G. lia.
Qed.
Lemma stack0_ok {A} (ts : list (tensor A)) sh d : ts <> [] -> Forall (fun t => shp t = sh) ts ->
  exists v, stack0 ts = Ok v /\ shp v = List.length ts :: sh /\ forall k i, k < List.length ts -> get v (k :: i) = get (nth k ts d) i.
Proof.
  intros Hne H. destruct ts as [|t0 ts]; [contradiction|]. cbn [stack0].
  pose proof (Forall_inv H) as H0. cbn beta in H0.
  assert (E : forallb (fun t => list_eqb (shp t) (shp t0)) (t0 :: ts) = true).
  { apply forallb_forall. intros t Ht. rewrite Forall_forall in H. rewrite (H t Ht), H0. apply list_eqb_refl. }
  rewrite E. eexists. split; [reflexivity|]. split; [cbn [shp]; rewrite H0; reflexivity|].
  intros k i Hk. cbn [get hd tl]. f_equal. apply nth_indep. exact Hk.
Qed.

(** ** C35 *)
Section C35.
  Variable K : cring.
  (** x[:, k] for an integer k: a negative k counts from the end *)
  Definition column (W : nat) (k : Z) : nat := Z.to_nat (if k <? 0 then k + Z.of_nat W else k)%Z.
  Definition in_width (W : nat) (k : Z) : Prop := (- Z.of_nat W <= k < Z.of_nat W)%Z.
  Lemma index1_ok (x : tensor K) B W r k : shp x = B :: W :: r -> in_width W k ->
    exists y, index1 K x k = Ok y /\ shp y = B :: r /\ forall b i, get y (b :: i) = get x (b :: column W k :: i).
  Proof.
    intros Hx Hk. unfold index1, column, in_width in *. rewrite Hx. set (j := (if k <? 0 then k + Z.of_nat W else k)%Z).
    assert (Hj : ((0 <=? j)%Z && (j <? Z.of_nat W)%Z) = true).
    { unfold j. destruct (Z.ltb_spec k 0); apply andb_true_intro; split; [apply Z.leb_le|apply Z.ltb_lt|apply Z.leb_le|apply Z.ltb_lt]; lia. }
    rewrite Hj. eexists. split; [reflexivity|]. split; [reflexivity|]. intros b i. reflexivity.
  Qed.
  Lemma index1_bad (x : tensor K) B W r k : shp x = B :: W :: r -> ~ in_width W k -> index1 K x k = Err IndexError.
  Proof.
    intros Hx Hk. unfold index1, in_width in *. rewrite Hx. set (j := (if k <? 0 then k + Z.of_nat W else k)%Z).
    assert (Hj : ((0 <=? j)%Z && (j <? Z.of_nat W)%Z) = false); [|rewrite Hj; reflexivity].
    unfold j. apply andb_false_iff. destruct (Z.ltb_spec k 0); [left; apply Z.leb_gt|right; apply Z.ltb_ge]; lia.
  Qed.
  Lemma route_ok (x : tensor K) B W r p : shp x = B :: W :: r -> p <> [] -> Forall (in_width W) p ->
    exists y, route K (PList p) x = Ok y /\ shp y = B :: List.length p :: r /\
      forall b s i, s < List.length p -> get y (b :: s :: i) = get x (b :: column W (nth s p 0%Z) :: i).
  Proof.
    intros Hx Hp Hin. unfold route. cbn [path_true path_list rbind].
    assert (E0 : negb (List.length p =? 0) = true) by (destruct p; [contradiction|reflexivity]). rewrite E0.
    destruct (rmap_Forall2 (index1 K x) (fun k y => shp y = B :: r /\ forall b i, get y (b :: i) = get x (b :: column W k :: i)) p) as (ys & Ey & Hys).
    { intros k Hk. rewrite Forall_forall in Hin. destruct (index1_ok x B W r k Hx (Hin k Hk)) as (y & ? & ? & ?). eauto. }
    rewrite Ey. cbn [rbind]. destruct ys as [|y0 ys]; [inversion Hys; subst; contradiction|].
    assert (Hsh : Forall (fun y => shp y = B :: r) (y0 :: ys)).
    { clear -Hys. induction Hys as [|k y p' l [H _] H' IH]; constructor; assumption. }
    pose proof (Forall_inv Hsh) as Hs0. cbn beta in Hs0.
    unfold stack1.
    assert (E : forallb (fun t => list_eqb (shp t) (shp y0)) (y0 :: ys) = true).
    { apply forallb_forall. intros t Ht. rewrite Forall_forall in Hsh. rewrite (Hsh t Ht), Hs0. apply list_eqb_refl. }
    rewrite E. unfold ndim. rewrite Hs0. cbn [List.length Nat.leb andb hd tl]. eexists. split; [reflexivity|].
    assert (El : List.length p = List.length (y0 :: ys)) by (clear -Hys; induction Hys; cbn; congruence).
    split; [cbn [shp]; rewrite El; reflexivity|]. intros b s i Hs. cbn [get hd nth skipn].
    assert (G : forall k, k < List.length p -> forall b i, get (nth k (y0 :: ys) y0) (b :: i) = get x (b :: column W (nth k p 0%Z) :: i)).
    { clear -Hys. intros k. generalize y0 at 2 as d. revert k. induction Hys as [|q y p' l [_ H] H' IH]; intros k d Hk b i; [cbn in Hk; lia|].
      destruct k as [|k]; [cbn [nth]; apply H|]. cbn [nth]. apply IH. cbn in Hk; lia. }
    apply G. exact Hs.
  Qed.

  (** The model with path p gives on x what the same model without path gives on the input y
      whose s-th pixel is x[:, p[s]]; r is [] for raw data, [feature_dim] for embedded data; the
      width W of x is arbitrary. *)
  Theorem C35_path N O D F per par label p std ub rnd m0 m x B W r g :
    mps_init K N O D F per par label (PList p) std ub rnd = Ok m0 -> trained m0 m -> p <> [] ->
    shp x = B :: W :: r -> Forall (in_width W) p ->
    List.length p = N /\
    exists y, shp y = B :: N :: r /\ (forall b s i, s < N -> get y (b :: s :: i) = get x (b :: column W (nth s p 0%Z) :: i)) /\
      mps_forward K m x g = mps_forward K (with_path K PNone m) y g.
  Proof.
    intros Hi Ht Hp Hx Hin. pose proof (model_built K _ _ _ _ _ _ _ _ _ _ _ _ _ Hi Ht) as Hb.
    assert (Hlen : List.length p = N).
    { unfold mps_init in Hi. destruct (label_of N label); cbn [rbind] in Hi; [|discriminate]. destruct (build_modules K _ _ _ _ _ _ _ _ _) as [mods|]; cbn [rbind] in Hi; [|discriminate].
      destruct (region_len K mods =? N); cbn [assert_ rbind] in Hi; [|discriminate]. unfold check_path in Hi. cbn [path_true path_list rbind] in Hi.
      assert (E0 : negb (List.length p =? 0) = true) by (destruct p; [contradiction|reflexivity]). rewrite E0 in Hi.
      destruct (List.length p =? N) eqn:E1; [apply Nat.eqb_eq; exact E1|discriminate]. }
    split; [exact Hlen|]. destruct (route_ok x B W r p Hx Hp Hin) as (y & Ey & Hy & Gy). exists y. rewrite <- Hlen. split; [exact Hy|]. split; [exact Gy|].
    unfold mps_forward, mbind, lift. rewrite (b_path K _ _ _ _ _ _ _ _ _ _ Hb), Ey. reflexivity.
  Qed.
  (** a path entry outside the width of the input raises *)
  Theorem C35_out_of_range N O D F per par label p std ub rnd m0 m x B W r g :
    mps_init K N O D F per par label (PList p) std ub rnd = Ok m0 -> trained m0 m ->
    shp x = B :: W :: r -> ~ Forall (in_width W) p -> mps_forward K m x g = (Err IndexError, g).
  Proof.
    intros Hi Ht Hx Hin. pose proof (model_built K _ _ _ _ _ _ _ _ _ _ _ _ _ Hi Ht) as Hb.
    unfold mps_forward, mbind, lift. rewrite (b_path K _ _ _ _ _ _ _ _ _ _ Hb). unfold route. cbn [path_true path_list rbind].
    assert (E0 : negb (List.length p =? 0) = true) by (destruct p; [exfalso; apply Hin; constructor|reflexivity]). rewrite E0.
    assert (E : rmap (index1 K x) p = Err IndexError); [|rewrite E; reflexivity].
    clear E0 Hi Hb. induction p as [|k p IH]; [exfalso; apply Hin; constructor|]. cbn [rmap].
    destruct (Z_le_dec (- Z.of_nat W) k) as [H1|H1]; [destruct (Z_lt_dec k (Z.of_nat W)) as [H2|H2]|].
    - destruct (index1_ok x B W r k Hx (conj H1 H2)) as (y & -> & _). cbn [rbind]. rewrite IH; [reflexivity|].
      intros H. apply Hin. constructor; [split; assumption|exact H].
    - rewrite (index1_bad x B W r k Hx); [reflexivity|]. unfold in_width. lia.
    - rewrite (index1_bad x B W r k Hx); [reflexivity|]. unfold in_width. lia.
  Qed.
  (** a list of another length (other than the empty list, which means no path) is rejected *)
  Theorem C35_length_checked N O D F per par label p std ub rnd :
    p <> [] -> List.length p <> N -> (match label with None => True | Some z => (0 <= z <= Z.of_nat N)%Z end) ->
    mps_init K N O D F per par label (PList p) std ub rnd = Err AssertionError.
  Proof.
    intros Hp Hn Hl. destruct (C34_constructor K N O D F per par label PNone std ub rnd Hl (or_introl (or_introl eq_refl))) as (m0 & E & _).
    unfold mps_init in *. destruct (label_of N label); cbn [rbind] in *; [|discriminate]. destruct (build_modules K _ _ _ _ _ _ _ _ _) as [mods|]; cbn [rbind] in *; [|discriminate].
    destruct (region_len K mods =? N); cbn [assert_ rbind] in *; [|discriminate]. unfold check_path. cbn [path_true path_list rbind].
    apply Nat.eqb_neq in Hn. rewrite Hn. destruct p; [contradiction|]. reflexivity.
  Qed.
End C35.

(** ** C60 *)
Section C60.
  Variable K : cring.
  (** bool() of a tensor with two or more entries raises: no such path is accepted *)
  Theorem C60_tensor_path_refuted N O D F per par label l std ub rnd :
    2 <= List.length l -> (match label with None => True | Some z => (0 <= z <= Z.of_nat N)%Z end) ->
    mps_init K N O D F per par label (PTensor l) std ub rnd = Err RuntimeError.
  Proof.
    intros Hn Hl. destruct (C34_constructor K N O D F per par label PNone std ub rnd Hl (or_introl (or_introl eq_refl))) as (m0 & E & _).
    unfold mps_init in *. destruct (label_of N label); cbn [rbind] in *; [|discriminate]. destruct (build_modules K _ _ _ _ _ _ _ _ _) as [mods|]; cbn [rbind] in *; [|discriminate].
    destruct (region_len K mods =? N); cbn [assert_ rbind] in *; [|discriminate]. destruct l as [|z0 [|z1 l]]; cbn in Hn; try lia. reflexivity.
  Qed.
  (** a tensor with the single entry 0 is ignored, whatever the number of inputs *)
  Theorem C60_zero_tensor_ignored N O D F per par label std ub rnd m0 m x g :
    mps_init K N O D F per par label (PTensor [0%Z]) std ub rnd = Ok m0 -> trained m0 m ->
    mps_forward K m x g = mps_forward K (with_path K PNone m) x g.
  Proof.
    intros Hi Ht. pose proof (model_built K _ _ _ _ _ _ _ _ _ _ _ _ _ Hi Ht) as Hb.
    unfold mps_forward, mbind, lift. rewrite (b_path K _ _ _ _ _ _ _ _ _ _ Hb). reflexivity.
  Qed.
  (** lists are accepted exactly when they are empty or as long as the input *)
  Theorem C60_list_path_partial N O D F per par label p std ub rnd :
    (match label with None => True | Some z => (0 <= z <= Z.of_nat N)%Z end) ->
    (exists m0, mps_init K N O D F per par label (PList p) std ub rnd = Ok m0) <-> (p = [] \/ List.length p = N).
  Proof.
    intros Hl. split.
    - intros (m0 & E). destruct p as [|k p]; [left; reflexivity|]. right. destruct (Nat.eq_dec (List.length (k :: p)) N) as [e|n]; [exact e|].
      rewrite (C35_length_checked K N O D F per par label (k :: p) std ub rnd ltac:(discriminate) n Hl) in E. discriminate.
    - intros H. destruct (C34_constructor K N O D F per par label (PList p) std ub rnd Hl) as (m0 & E & _); [|eauto].
      destruct H as [->|H]; [left; right; reflexivity|right; eauto].
  Qed.
End C60.

(** ** C36 *)
Section C36.
  Variable K : cring.
  (** a feature map given by a function phi that returns vectors of length F *)
  Definition maps_to (F : nat) (f : fmap K) (phi : K -> vec K) : Prop :=
    forall v, exists t, f v = Ok t /\ shp t = [F] /\ forall i, i < F -> get t [i] = phi v i.
  (** x -> (x, 1 - x) *)
  Definition linear_map : K -> vec K := fun v i => if i =? 0 then v else rsub s1 v.
  (** e is the input x embedded pixel by pixel *)
  Definition embedded (B N F : nat) (phi : K -> vec K) (x e : tensor K) : Prop :=
    shp e = [B; N; F] /\ forall b s i, b < B -> s < N -> i < F -> get e [b; s; i] = phi (get x [b; s]) i.

  Lemma embed_map_ok f phi F (x : tensor K) B N : maps_to F f phi -> shp x = [B; N] -> 0 < B -> 0 < N ->
    exists e, embed_map K f x = Ok e /\ embedded B N F phi x e.
  Proof.
    intros Hf Hx HB HN. unfold embed_map, size. rewrite Hx. cbn [nth].
    destruct (rmap_Forall2 (fun b => let* vs := rmap (fun n => f (get x [b; n])) (seq 0 N) in stack0 vs)
      (fun b row => shp row = [N; F] /\ forall s i, s < N -> i < F -> get row [s; i] = phi (get x [b; s]) i) (seq 0 B)) as (rows & Er & Hr).
    { intros b Hb.
      destruct (rmap_Forall2 (fun n => f (get x [b; n])) (fun n t => shp t = [F] /\ forall i, i < F -> get t [i] = phi (get x [b; n]) i) (seq 0 N)) as (vs & Ev & Hv).
      { intros n _. apply Hf. }
      rewrite Ev. cbn [rbind]. destruct (Forall2_seq _ _ _ _ (tconst [] s0) Hv) as [Lv Gv].
      destruct (stack0_ok vs [F] (tconst [] s0)) as (row & Ew & Hw & Gw).
      - intros ->. cbn in Lv. lia.
      - apply Forall_forall. intros t Ht. apply (In_nth _ _ (tconst [] s0)) in Ht as (k & Hk & <-). apply (Gv k). lia.
      - exists row. split; [exact Ew|]. split; [congruence|]. intros s i Hs Hi. rewrite Gw by lia. apply (Gv s Hs). exact Hi. }
    rewrite Er. cbn [rbind]. destruct (Forall2_seq _ _ _ _ (tconst [] s0) Hr) as [Lr Gr].
    destruct (stack0_ok rows [N; F] (tconst [] s0)) as (e & Ee & He & Ge).
    - intros ->. cbn in Lr. lia.
    - apply Forall_forall. intros t Ht. apply (In_nth _ _ (tconst [] s0)) in Ht as (k & Hk & <-). apply (Gr k). lia.
    - exists e. split; [exact Ee|]. split; [congruence|]. intros b s i Hb Hs Hi. rewrite Ge by lia. apply (Gr b Hb); assumption.
  Qed.
  Lemma embed_default_ok (x : tensor K) B N : shp x = [B; N] -> embedded B N 2 linear_map x (embed_default K x).
  Proof.
    intros Hx. unfold embed_default, size. rewrite Hx. split; [reflexivity|]. intros b s i _ _ _. reflexivity.
  Qed.

  Section Model.
    Variables (N O D F : nat) (per par ub : bool) (label : option Z) (path : mpath) (std : K) (rnd : nat -> list nat -> K).
    Variables (m0 m : mps K).
    Hypothesis Hinit : mps_init K N O D F per par label path std ub rnd = Ok m0.
    Hypothesis Htr : trained m0 m.
    Hypothesis Hpath : no_path path.
    Lemma forward_after x e B g : shp x = [B; N] -> mps_embed K m x = Ok e -> shp e = [B; N; F] -> mps_forward K m x g = mps_forward K m e g.
    Proof.
      intros Hx He Hse. destruct (model_built K _ _ _ _ _ _ _ _ _ _ _ _ _ Hinit Htr).
      rewrite (mps_forward_eq K m x g x e); [|apply route_off; rewrite b_path; apply no_path_off; exact Hpath|exact He].
      rewrite (mps_forward_eq K m e g e e); [reflexivity|apply route_off; rewrite b_path; apply no_path_off; exact Hpath|].
      apply mps_embed_pre with (B := B). rewrite b_in, b_feat. exact Hse.
    Qed.
    Lemma embed_raw x B : shp x = [B; N] -> mps_embed K m x = match m_fmap m with
      | Some f => let* e := embed_map K f x in let* _ := assert_ (list_eqb (shp e) [B; N; F]) in Ok e
      | None => if F =? 2 then Ok (embed_default K x) else Err RuntimeError end.
    Proof.
      intros Hx. destruct (model_built K _ _ _ _ _ _ _ _ _ _ _ _ _ Hinit Htr).
      unfold mps_embed, ndim, size. rewrite Hx, b_in, b_feat. cbn [List.length Nat.eqb orb nth assert_ rbind]. rewrite Nat.eqb_refl. reflexivity.
    Qed.
    (** the default map *)
    Theorem C36_default x B g : m_fmap m = None -> F = 2 -> shp x = [B; N] ->
      exists e, embedded B N F linear_map x e /\ mps_forward K m x g = mps_forward K m e g.
    Proof.
      intros Hf HF Hx. exists (embed_default K x). pose proof (embed_default_ok x B N Hx) as He. rewrite <- HF in He. split; [exact He|].
      apply forward_after with (B := B); [exact Hx| |exact (proj1 He)]. rewrite (embed_raw x B Hx), Hf, HF. reflexivity.
    Qed.
    Theorem C36_default_needs_two x B g : m_fmap m = None -> F <> 2 -> shp x = [B; N] -> mps_forward K m x g = (Err RuntimeError, g).
    Proof.
      intros Hf HF Hx. unfold mps_forward, mbind, lift. destruct (model_built K _ _ _ _ _ _ _ _ _ _ _ _ _ Hinit Htr).
      rewrite route_off by (rewrite b_path; apply no_path_off; exact Hpath). rewrite (embed_raw x B Hx), Hf. apply Nat.eqb_neq in HF. rewrite HF. reflexivity.
    Qed.
    (** a registered map *)
    Theorem C36_custom f phi m' x B g : maps_to F f phi -> mps_register K m (Some f) = Ok m' ->
      shp x = [B; N] -> 0 < B -> 0 < N ->
      exists e, embedded B N F phi x e /\ mps_forward K m' x g = mps_forward K m e g.
    Proof.
      intros Hf Hm Hx HB HN. destruct (embed_map_ok f phi F x B N Hf Hx HB HN) as (e & Ee & He). exists e. split; [exact He|].
      destruct (model_built K _ _ _ _ _ _ _ _ _ _ _ _ _ Hinit Htr).
      unfold mps_register in Hm. destruct (Hf s0) as (t0 & Et & _). rewrite Et in Hm. cbn [rbind] in Hm. destruct (list_eqb (shp t0) _); cbn [rbind] in Hm; [|discriminate].
      injection Hm as <-.
      rewrite (mps_forward_eq K m e g e e); [|apply route_off; rewrite b_path; apply no_path_off; exact Hpath|].
      2: { apply mps_embed_pre with (B := B). rewrite b_in, b_feat. exact (proj1 He). }
      rewrite (mps_forward_eq K (mkMps K _ _ _ _ _ _ _ _ _ _ _) x g x e); [reflexivity| |].
      - cbn [m_path]. apply route_off. rewrite b_path. apply no_path_off. exact Hpath.
      - unfold mps_embed, ndim, size. cbn [m_fmap m_input m_feature]. rewrite Hx, b_in, b_feat. cbn [List.length Nat.eqb orb nth assert_ rbind]. rewrite Nat.eqb_refl. cbn [assert_ rbind].
        rewrite Ee. cbn [rbind]. rewrite (proj1 He), list_eqb_refl. reflexivity.
    Qed.
    (** embedded data is used as it is, whatever map is registered *)
    Theorem C36_pre_embedded f x g : ndim x = 3 -> mps_forward K (with_map K f m) x g = mps_forward K m x g.
    Proof.
      intros Hx. destruct (model_built K _ _ _ _ _ _ _ _ _ _ _ _ _ Hinit Htr).
      unfold mps_forward, mbind, lift. cbn [with_map m_path m_modules m_periodic m_parallel].
      rewrite route_off by (rewrite b_path; apply no_path_off; exact Hpath).
      unfold mps_embed. cbn [m_input m_feature m_fmap]. rewrite Hx. reflexivity.
    Qed.
    (** registration tests the map on 0 and rejects it exactly when the shape is wrong *)
    Theorem C36_register f t : f s0 = Ok t ->
      mps_register K m (Some f) = if list_eqb (shp t) [F] then Ok (with_map K (Some f) m) else Err ValueError.
    Proof.
      intros Hf. destruct (model_built K _ _ _ _ _ _ _ _ _ _ _ _ _ Hinit Htr). unfold mps_register, with_map. rewrite Hf, b_feat. cbn [rbind].
      destruct (list_eqb (shp t) [F]); reflexivity.
    Qed.
    Theorem C36_reset : mps_register K m None = Ok (with_map K None m).
    Proof. reflexivity. Qed.
  End Model.

  (** registering x -> (x, 1 - x) changes nothing: the embedded input, of which the rest of the
      forward pass is a function, has the same shape and entries *)
  Theorem C36_register_default N O D per par label path std ub rnd m0 m f m' x B :
    mps_init K N O D 2 per par label path std ub rnd = Ok m0 -> trained m0 m -> m_fmap m = None ->
    maps_to 2 f linear_map -> mps_register K m (Some f) = Ok m' -> shp x = [B; N] -> 0 < B -> 0 < N ->
    exists e e', mps_embed K m x = Ok e /\ mps_embed K m' x = Ok e' /\ shp e = [B; N; 2] /\ shp e' = [B; N; 2] /\
      forall b s i, b < B -> s < N -> i < 2 -> get e [b; s; i] = get e' [b; s; i].
  Proof.
    intros Hi Ht Hf Hm Hr Hx HB HN. destruct (model_built K _ _ _ _ _ _ _ _ _ _ _ _ _ Hi Ht).
    destruct (embed_default_ok x B N Hx) as [S1 G1]. destruct (embed_map_ok f linear_map 2 x B N Hm Hx HB HN) as (e & Ee & S2 & G2).
    exists (embed_default K x), e. split; [rewrite (embed_raw _ _ _ _ _ _ _ _ _ _ _ _ _ Hi Ht x B Hx), Hf; reflexivity|]. split; [|split; [exact S1|split; [exact S2|]]].
    - unfold mps_register in Hr. destruct (Hm s0) as (t0 & Et & _). rewrite Et in Hr. cbn [rbind] in Hr. destruct (list_eqb (shp t0) _); cbn [rbind] in Hr; [|discriminate].
      injection Hr as <-. unfold mps_embed, ndim, size. cbn [m_fmap m_input m_feature]. rewrite Hx, b_in, b_feat. cbn [List.length Nat.eqb orb nth assert_ rbind]. rewrite Nat.eqb_refl. cbn [assert_ rbind].
      rewrite Ee. cbn [rbind]. rewrite S2, list_eqb_refl. reflexivity.
    - intros b s i Hb Hs Hii. rewrite G1, G2 by assumption. reflexivity.
  Qed.
  (** ... and so has the output *)
  Theorem C36_register_default_forward N O D per par label path std ub rnd m0 m f m' x B g :
    mps_init K N O D 2 per par label path std ub rnd = Ok m0 -> trained m0 m -> no_path path -> m_fmap m = None ->
    maps_to 2 f linear_map -> mps_register K m (Some f) = Ok m' -> shp x = [B; N] -> 0 < B -> 0 < N ->
    good_label N (m_label m) -> 0 < m_label m \/ g = Some B -> (if per then 1 <= N else 0 < D) ->
    exists out out', mps_forward K m x g = (Ok out, Some B) /\ mps_forward K m' x g = (Ok out', Some B) /\
      shp out = [B; O] /\ shp out' = [B; O] /\ forall b o, b < B -> o < O -> get out [b; o] = get out' [b; o].
  Proof.
    intros Hi Ht Hp Hf Hm Hr Hx HB HN HG Hg Hc.
    destruct (C36_default _ _ _ _ _ _ _ _ _ _ _ _ _ Hi Ht Hp x B g Hf eq_refl Hx) as (e & (He & Ge) & E).
    destruct (C36_custom _ _ _ _ _ _ _ _ _ _ _ _ _ Hi Ht Hp f linear_map m' x B g Hm Hr Hx HB HN) as (e' & (He' & Ge') & E').
    pose proof (model_label K _ _ _ _ _ _ _ _ _ _ _ _ _ Hi Ht) as El. rewrite El in *.
    destruct (forward_value K _ _ _ _ _ _ _ _ _ _ _ _ _ Hi Ht e B g Hp HG Hg Hc He) as (out & Eo & Ho & Go).
    destruct (forward_value K _ _ _ _ _ _ _ _ _ _ _ _ _ Hi Ht e' B g Hp HG Hg Hc He') as (out' & Eo' & Ho' & Go').
    exists out, out'. rewrite E, E', Eo, Eo'. split; [reflexivity|]. split; [reflexivity|]. split; [exact Ho|]. split; [exact Ho'|].
    intros b o Hb Hoo. rewrite Go, Go' by assumption. apply value_ext; [apply (b_le K _ _ _ _ _ _ _ _ _ _ (model_built K _ _ _ _ _ _ _ _ _ _ _ _ _ Hi Ht))|].
    intros s i Hs Hi'. rewrite Ge, Ge' by assumption. reflexivity.
  Qed.
End C36.

(** ** C37 *)
Section C37.
  Variable K : cring.
  Add Ring Kr : (rth K).
  (** x2 agrees with x0 and x1 except at site s, where its feature vector is a x0 + b x1; with
      biases a + b must be 1 (affine), without any a and b are allowed (linear) *)
  Definition mixes (B N F s : nat) (a b : K) (x0 x1 x2 : tensor K) : Prop :=
    forall c s' i, c < B -> s' < N -> i < F ->
      if s' =? s then get x2 [c; s'; i] = sadd (smul a (get x0 [c; s'; i])) (smul b (get x1 [c; s'; i]))
      else get x1 [c; s'; i] = get x0 [c; s'; i] /\ get x2 [c; s'; i] = get x0 [c; s'; i].
End C37.

(** ** the hypotheses are met: a model with four inputs, two outputs, bond dimension two, and its
    output on a batch of two, computed by the code and by the specification *)
Definition ex_mps (per par : bool) : mps Z_cring := get_mps (mps_init Z_cring 4 2 2 2 per par None PNone (1%Z : Z_cring) true tick).
Definition entries (r : res (tensor Z_cring)) : option (list nat * list Z) :=
  match r with Ok o => Some (shp o, map (fun i => get o i) [[0; 0]; [0; 1]; [1; 0]; [1; 1]]) | Err _ => None end.
Definition by_spec (v : nat -> nat -> Z) : option (list nat * list Z) := Some ([2; 2], [v 0 0; v 0 1; v 1 0; v 1 1]).
Example ex_built per par : mps_init Z_cring 4 2 2 2 per par None PNone (1%Z : Z_cring) true tick = Ok (ex_mps per par) /\
  trained (ex_mps per par) (ex_mps per par) /\ m_label (ex_mps per par) = 2 /\ good_label 4 2.
Proof.
  destruct (C34_constructor Z_cring 4 2 2 2 per par None PNone (1%Z : Z_cring) true tick Logic.I (or_introl (or_introl eq_refl))) as (m & Em & Ht & El).
  unfold ex_mps. rewrite Em. cbn [get_mps]. split; [reflexivity|]. split; [exact Ht|]. split; [exact El|]. unfold good_label; lia.
Qed.
Example ex_open : entries (fst (mps_forward Z_cring (ex_mps false false) (pix 2 4 2) None)) =
    by_spec (fun b o => train_value 4 2 2 2 (weights_of (ex_mps false false)) (fun s i => get (pix 2 4 2) [b; s; i]) o) /\
  entries (fst (mps_forward Z_cring (ex_mps false false) (pix 2 4 2) None)) = Some ([2; 2], [1708236%Z; 2179368%Z; 11567424%Z; 14754432%Z]).
Proof. split; vm_compute; reflexivity. Qed.
Example ex_ring : entries (fst (mps_forward Z_cring (ex_mps true false) (pix 2 4 2) None)) =
  by_spec (fun b o => ring_value 4 2 2 2 (weights_of (ex_mps true false)) (fun s i => get (pix 2 4 2) [b; s; i]) o).
Proof. vm_compute; reflexivity. Qed.
Definition mixed (k : Z) : tensor Z_cring := mkT [2; 4; 2] (fun i => if nth 1 i 0 =? 1 then (k * tick 0 i)%Z else tick 0 i).
Example ex_mixes : mixes Z_cring 2 4 2 1 (-1)%Z 2%Z (mixed 1) (mixed 3) (mixed 5).
Proof.
  intros c s' i Hc Hs Hi. cbn [mixed get nth]. destruct (s' =? 1); [|split; reflexivity].
  change ((5 * tick 0 [c; s'; i])%Z = (-1 * (1 * tick 0 [c; s'; i]) + 2 * (3 * tick 0 [c; s'; i]))%Z). lia.
Qed.
Example ex_map : maps_to Z_cring 2 (fun v => Ok (mkT [2] (fun i => if nth 0 i 0 =? 0 then v else (1 - v)%Z))) (linear_map Z_cring).
Proof. intros v. eexists. split; [reflexivity|]. split; [reflexivity|]. intros i Hi. reflexivity. Qed.
Example ex_path : Forall (in_width 5) [3; -1; 0; 0]%Z /\ List.length [3; -1; 0; 0]%Z = 4 /\ column 5 (-1)%Z = 4.
Proof. split; [repeat constructor; unfold in_width; lia|split; reflexivity]. Qed.
Print Assumptions C30_open_boundary_returns.
