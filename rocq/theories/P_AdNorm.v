(** * P_AdNorm: C54: the cores are rescaled to the same norm, by factors whose product is 1 *)
From Coq Require Import Reals Lra.
From Verif Require Import Base Scalars Tensor Utils2Proofs TorchMps Adaptive AdSplit AdSpec AdUnmerge AdEqual.

Section C54.
  Notation T := (tensor R_cring).
  Notation mod_ := (module R_cring).
  (** the cores of a list of modules that are not merged *)
  Definition cores1 (m : mod_) : list T :=
    match m with
    | InputRegion t _ _ => map (sel0 t) (seq 0 (size 0 t))
    | OutputSite t | InputSite t => [t]
    | MergedInput _ | MergedOutput _ _ => []
    end.
  Definition cores (l : list mod_) : list T := flat_map cores1 l.
  Definition not_merged (m : mod_) : Prop := match m with InputRegion _ _ _ | InputSite _ | OutputSite _ => True | _ => False end.
  Definition product (l : list R) : R := fold_right Rmult 1%R l.
  (** u is t times x, entry by entry *)
  Definition times (x : R) (t u : T) : Prop := shp u = shp t /\ forall i, valid (shp t) i -> get u i = (x * get t i)%R.

  Lemma cores_norm l : Forall not_merged l -> map norm (cores l) = flat_map get_norm l.
  Proof.
    induction 1 as [|m l Hm H IH]; [reflexivity|]. unfold cores in *. cbn [flat_map]. rewrite map_app, IH. f_equal.
    destruct m; try destruct Hm; cbn [cores1 get_norm]; try reflexivity. rewrite map_map. reflexivity.
  Qed.
  Inductive times_all : list R -> list T -> list T -> Prop :=
  | TA_nil : times_all [] [] []
  | TA_cons x t u xs ts us : times x t u -> times_all xs ts us -> times_all (x :: xs) (t :: ts) (u :: us).
  Lemma times_app a ts us a' ts' us' : times_all a ts us -> times_all a' ts' us' -> times_all (a ++ a') (ts ++ ts') (us ++ us').
  Proof. induction 1; intros H'; cbn [app]; [exact H'|]. constructor; auto. Qed.
  Lemma times_seq (f : nat -> R) (t u : nat -> T) l : (forall k, In k l -> times (f k) (t k) (u k)) -> times_all (map f l) (map t l) (map u l).
  Proof. induction l as [|k l IH]; intros H; cbn [map]; constructor; [apply H; left; reflexivity|]. apply IH. intros k' Hk. apply H. right. exact Hk. Qed.
  Lemma rescale_times m sc : not_merged m -> (List.length sc = List.length (cores1 m)) ->
    exists m', rescale_norm m sc = Ok m' /\ not_merged m' /\ times_all sc (cores1 m) (cores1 m').
  Proof.
    intros U Hl. destruct m as [t ub b|t|t|t|t lo]; try destruct U; cbn [cores1] in Hl |- *.
    - rewrite map_length, seq_length in Hl. cbn [rescale_norm]. rewrite Hl, Nat.eqb_refl. cbn [assert_ rbind set_tensor]. eexists. split; [reflexivity|]. split; [exact Logic.I|].
      cbn [cores1]. change (size 0 (mkT (shp t) _)) with (size 0 t).
      replace sc with (map (fun s => nth s sc 1%R) (seq 0 (size 0 t))) at 1 by (rewrite <- Hl; apply map_nth_seq).
      apply times_seq. intros k _. split; [reflexivity|]. intros i _. unfold sel0. cbn [get hd]. apply Rmult_comm.
    - destruct sc as [|x [|y sc]]; try discriminate Hl. cbn [rescale_norm set_tensor]. eexists. split; [reflexivity|]. split; [exact Logic.I|].
      cbn [cores1]. constructor; [|constructor]. split; [reflexivity|]. intros i _. cbn [get]. apply Rmult_comm.
    - destruct sc as [|x [|y sc]]; try discriminate Hl. cbn [rescale_norm set_tensor]. eexists. split; [reflexivity|]. split; [exact Logic.I|].
      cbn [cores1]. constructor; [|constructor]. split; [reflexivity|]. intros i _. cbn [get]. apply Rmult_comm.
  Qed.
  Lemma rescale_list ls c : Forall not_merged c -> exists e, rmap (fun m => rescale_norm m (map (fun n => exp (ls - ln n)) (get_norm m))) c = Ok e /\ Forall not_merged e /\
    times_all (map (fun n => exp (ls - ln n)) (flat_map get_norm c)) (cores c) (cores e).
  Proof.
    induction 1 as [|m c Hm H IH].
    - exists []. split; [reflexivity|]. split; [constructor|]. cbn. constructor.
    - destruct IH as (e & Ee & Ue & Te). destruct (rescale_times m (map (fun n => exp (ls - ln n)) (get_norm m)) Hm) as (m' & Em & Um & Tm).
      { rewrite map_length. destruct m; try destruct Hm; cbn [get_norm cores1]; rewrite ?map_length; reflexivity. }
      cbn [rmap]. rewrite Em. cbn [rbind]. rewrite Ee. cbn [rbind]. exists (m' :: e). split; [reflexivity|]. split; [constructor; assumption|].
      cbn [flat_map]. rewrite map_app. unfold cores. cbn [flat_map]. apply times_app; assumption.
  Qed.
  Lemma norm_times x t u : (0 <= x)%R -> times x t u -> norm u = (x * norm t)%R.
  Proof.
    intros Hx [Hs Hg]. rewrite <- norm_scale by exact Hx. apply norm_ext; [exact Hs|]. intros i Hi. cbn [get]. rewrite Hs in Hi. rewrite Hg by exact Hi. apply Rmult_comm.
  Qed.
  Lemma product_exp l : Forall (fun x => (0 < x)%R) l -> product l = exp (fold_right Rplus 0%R (map ln l)).
  Proof. induction 1 as [|x l Hx H IH]; cbn [product fold_right map]; [symmetry; apply exp_0|]. unfold product in IH. rewrite IH, exp_plus, exp_ln by exact Hx. reflexivity. Qed.
  Lemma exp_pow a n : (exp a ^ n = exp (INR n * a))%R.
  Proof. induction n as [|n IH]; [cbn; symmetry; rewrite Rmult_0_l; apply exp_0|]. cbn [pow]. rewrite IH, <- exp_plus. f_equal. rewrite S_INR. ring. Qed.

  (** C54 *)
  Theorem C54_equal_norms c : Forall not_merged c -> cores c <> [] -> (forall t, In t (cores c) -> not_zero t) ->
    exists e scales G, equalize c = Ok e /\ times_all scales (cores c) (cores e) /\
      Forall (fun x => (0 < x)%R) scales /\ product scales = 1%R /\
      (forall u, In u (cores e) -> norm u = G) /\ (0 < G)%R /\ (G ^ List.length (cores c) = product (map norm (cores c)))%R.
  Proof.
    intros U Hne Hz. pose proof (cores_norm c U) as Hn.
    assert (Pos : Forall (fun x => (0 < x)%R) (flat_map get_norm c)).
    { rewrite <- Hn. apply Forall_forall. intros x Hx. apply in_map_iff in Hx as (t & <- & Ht). apply norm_pos. exact (Hz t Ht). }
    assert (Hlen : List.length (flat_map get_norm c) = List.length (cores c)) by (rewrite <- Hn; apply map_length).
    unfold equalize. destruct (Nat.eqb_spec (List.length (flat_map get_norm c)) 0) as [E|Hl0]; [rewrite Hlen in E; apply length_zero_iff_nil in E; contradiction|].
    assert (Hex : existsb (fun x => if Req_EM_T x 0 then true else false) (flat_map get_norm c) = false).
    { destruct (existsb _ _) eqn:E; [|reflexivity]. apply existsb_exists in E as (x & Hx & E). rewrite Forall_forall in Pos. specialize (Pos x Hx). destruct (Req_EM_T x 0); [subst; exfalso; lra|discriminate]. }
    rewrite Hex. fold (log_mean (flat_map get_norm c)). set (ls := log_mean (flat_map get_norm c)).
    destruct (rescale_list ls c U) as (e & Ee & Ue & Te). exists e, (map (fun n => exp (ls - ln n)) (flat_map get_norm c)), (exp ls). split; [exact Ee|]. split; [exact Te|].
    assert (Hne' : flat_map get_norm c <> []) by (intros X; rewrite X in Hl0; apply Hl0; reflexivity).
    split; [apply Forall_forall; intros x Hx; apply in_map_iff in Hx as (y & <- & _); apply exp_pos|]. split; [exact (scales_unit _ Hne')|]. split.
    - rewrite <- Hn in Te, Pos. clearbody ls. clear - Te Pos. remember (map (fun n => exp (ls - ln n)) (map norm (cores c))) as sc eqn:Es. revert Es Pos.
      induction Te as [|x t u xs ts us Ht Te IH]; intros Es Pos v Hv; [destruct Hv|]. cbn [map] in Es, Pos. injection Es as Ex Es. inversion Pos as [|? ? P1 P2]; subst.
      destruct Hv as [<-|Hv]; [|apply IH; auto]. rewrite (norm_times _ _ _ ltac:(left; apply exp_pos) Ht).
      rewrite <- (exp_ln (norm t) P1) at 2. rewrite <- exp_plus. f_equal. ring.
    - split; [apply exp_pos|]. rewrite exp_pow, Hn, product_exp by exact Pos. f_equal. rewrite <- Hlen. unfold ls, log_mean. field. apply not_0_INR. exact Hl0.
  Qed.
  (** a core that is zero turns the parameters into NaN (reported by the model as NotANumber) *)
  Theorem C54_zero_core c : Forall not_merged c -> (exists t, In t (cores c) /\ forall i, valid (shp t) i -> get t i = 0%R) -> equalize c = Err NotANumber.
  Proof.
    intros U (t & Ht & Hz). pose proof (cores_norm c U) as Hn. unfold equalize.
    assert (Hi : In 0%R (flat_map get_norm c)).
    { rewrite <- Hn. apply in_map_iff. exists t. split; [|exact Ht]. unfold norm. replace (fold_right Rplus 0%R _) with 0%R; [apply sqrt_0|]. symmetry.
      assert (A : forall l, (forall i, In i l -> valid (shp t) i) -> fold_right Rplus 0%R (map (fun i => (get t i * get t i)%R) l) = 0%R).
      { induction l as [|i l IH]; intros Hv; cbn [map fold_right]; [reflexivity|]. rewrite Hz by (apply Hv; left; reflexivity). rewrite IH by (intros j Hj; apply Hv; right; exact Hj). ring. }
      apply A. intros i Hi. apply all_idx_spec. exact Hi. }
    destruct (Nat.eqb_spec (List.length (flat_map get_norm c)) 0) as [E|_]; [apply length_zero_iff_nil in E; rewrite E in Hi; destruct Hi|].
    assert (Hex : existsb (fun x => if Req_EM_T x 0 then true else false) (flat_map get_norm c) = true).
    { apply existsb_exists. exists 0%R. split; [exact Hi|]. destruct (Req_EM_T 0 0); [reflexivity|contradiction]. }
    rewrite Hex. reflexivity.
  Qed.
End C54.
(** a concrete list: two cores with norms 2 and 8 *)
Definition c54_list : list (module R_cring) := [InputSite (K := R_cring) (@mkT R_cring [1; 1; 1] (fun _ => 2%R)); OutputSite (K := R_cring) (@mkT R_cring [1; 1; 1] (fun _ => 8%R))].
Example C54_example : Forall not_merged c54_list /\ cores c54_list <> [] /\ (forall t, In t (cores c54_list) -> not_zero t).
Proof.
  split; [repeat constructor|]. split; [discriminate|]. intros t [<-|[<-|[]]]; exists [0; 0; 0]; (split; [repeat constructor|cbn; lra]).
Qed.
Print Assumptions C54_equal_norms.
Print Assumptions C54_zero_core.
