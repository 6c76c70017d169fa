(** * P_InitExact: C56, the outcome of init_tensor for all arguments (torchmps/utils.py:160-253) *)
From Coq Require Import Lia ListDec.
From Verif Require Import Base Scalars Tensor LinAlg EinsumProofs Contractables Utils UtilsSpec UtilsProofs P_Utils.

(** of the two bond labels, "l" comes first *)
Fixpoint l_first (bs : list ascii) : bool :=
  match bs with
  | [] => true
  | c :: bs' => if Ascii.eqb c "l" then true else if Ascii.eqb c "r" then false else l_first bs'
  end.
Section P.
  Variable K : cring.
  Add Ring KrIE : (rth K).
  Variable dstd : K.

  (** The method, the standard deviation and the further entries that the argument init_method gives *)
  Definition method_of (m : init_method K) : string := match m with IName n | ITuple n _ _ => n end.
  Definition std_of (m : init_method K) : K := match m with IName _ => dstd | ITuple _ s _ => s end.
  Definition one_if (b : bool) : K := if b then s1 else s0.
  (** The exception, or the tensor that the noise is added to.  [l i] and [r i] are the two bond
      indices of the entry [i] (and the two bond dimensions, for [i] the shape). *)
  Definition init_verdict (shape : list nat) (bond : string) (m : init_method K) : res (list nat -> K) :=
    let bs := list_ascii_of_string bond in
    let l := coord bs "l"%char in let r := coord bs "r"%char in
    let is := String.eqb (method_of m) in
    if (is "min_random_eye"%string && match m with ITuple _ _ [] => true | _ => false end) then Err IndexError
    else if negb (List.length shape =? List.length bs) then Err AssertionError
    else if NoDup_dec ascii_dec bs then
      if is "random_zero"%string then Ok (fun _ => s0)
      else if is "random_eye"%string || is "min_random_eye"%string then
        if in_dec ascii_dec "l"%char bs then if in_dec ascii_dec "r"%char bs then
          if is "random_eye"%string then
            if l_first bs then Ok (fun i => one_if (l i =? r i))
            else Ok (fun i => let k := r i * l shape + l i in one_if (k / r shape =? k mod r shape))
          else
            match m with
            | ITuple _ _ (d :: _) =>
                if (d <=? Nat.min (l shape) (r shape)) || (l shape =? r shape) || (Nat.min (l shape) (r shape) =? 0)
                then Ok (fun i => one_if ((l i =? r i) && (l i <? Nat.min d (Nat.min (l shape) (r shape)))))
                else Err RuntimeError
            | _ => Err NameError
            end
        else Err AssertionError else Err AssertionError
      else Err ValueError
    else Err AssertionError.

  Lemma l_first_before bs : NoDup bs -> In "l"%char bs -> In "r"%char bs ->
    if l_first bs then label_before "l" "r" bs else label_before "r" "l" bs.
  Proof.
    induction bs as [|c bs IH]; intros Hn Hl Hr; [destruct Hl|]. cbn [l_first]. inversion Hn as [|? ? Hc Hn']; subst.
    destruct (Ascii.eqb_spec c "l") as [->|Nl].
    { destruct Hr as [Hr|Hr]; [discriminate Hr|]. destruct (in_split _ _ Hr) as (v & w & ->). exists [], v, w. reflexivity. }
    destruct (Ascii.eqb_spec c "r") as [->|Nr].
    { destruct Hl as [Hl|Hl]; [discriminate Hl|]. destruct (in_split _ _ Hl) as (v & w & ->). exists [], v, w. reflexivity. }
    assert (H : if l_first bs then label_before "l" "r" bs else label_before "r" "l" bs).
    { apply IH; [exact Hn'| |]; [destruct Hl; congruence|destruct Hr; congruence]. }
    destruct (l_first bs); destruct H as (u & v & w & ->); exists (c :: u), v, w; reflexivity.
  Qed.
  (** random_eye with "r" before "l": the identity matrix read row by row *)
  Lemma eye_swapped bs es : nodupb bs = true -> List.length es = List.length bs -> label_before "r" "l" bs -> NoDup bs ->
    exists e e', view (eye2 K (coord bs "l" es) (coord bs "r" es)) (lr_shape bs es) = Ok e /\ expand e es = Ok e' /\ shp e' = es /\
      forall i, valid es i -> get e' i = (let k := coord bs "r" i * coord bs "l" es + coord bs "l" i in one_if (k / coord bs "r" es =? k mod coord bs "r" es)).
  Proof.
    intros Hnd Hn Hb HN. pose proof (label_before_before "r"%char "l"%char bs HN Hb) as H. apply label_before_in in Hb as [Hr Hl].
    rewrite !coord_bond_size. set (dl := bond_size es bs "l"%char) in *. set (dr := bond_size es bs "r"%char) in *.
    assert (Hpr : iprod (lr_shape bs es) = dl * dr).
    { rewrite Nat.mul_comm. apply (shape_two "r"%char "l"%char bs es); auto. }
    unfold view. cbn [shp eye2]. replace (iprod [dl; dr]) with (dl * dr) by (cbn; lia). rewrite Hpr, Nat.eqb_refl.
    eexists. eexists. split; [reflexivity|]. unfold expand. cbn [shp].
    rewrite exp_ok_same; [|rewrite !rev_length; apply lr_shape_length in Hn as E; congruence|apply Forall2_rev'; apply lr_shape_exp; exact Hn].
    split; [reflexivity|]. split; [reflexivity|]. intros i Hi. cbn [get].
    assert (Hir : at_char bs i "r"%char < dr) by (apply at_char_lt; assumption).
    assert (Hbp : bproj (lr_shape bs es) i = map2 bidx (lr_shape bs es) i).
    { unfold bproj. rewrite (lr_shape_length _ _ Hn).
      replace (lastn (List.length bs) i) with i; [reflexivity|]. symmetry. apply lastn_all. rewrite (valid_length _ _ Hi). exact Hn. }
    rewrite Hbp. cbn [unravel]. replace (iprod [dr]) with dr by (cbn; lia). cbn [iprod fold_right nth].
    rewrite (proj2 (shape_two "r"%char "l"%char bs es ltac:(auto) H Hnd Hn) i Hi). fold dl. rewrite Nat.div_1_r.
    rewrite !coord_bond_size. reflexivity.
  Qed.
  Lemma eye_null bs es : List.length es = List.length bs -> nodupb bs = true -> NoDup bs -> In "l"%char bs -> In "r"%char bs ->
    Nat.min (coord bs "l" es) (coord bs "r" es) = 0 ->
    let q := map2 (fun c n => if is_lr c then 0 else n) bs es in
    exists e e', view (eye2 K (coord bs "l" es) (coord bs "r" es)) (map (fun c => if is_lr c then 0 else 1) bs) = Ok e /\ expand e q = Ok e'.
  Proof.
    intros Hn Hnd HN Hl Hr Hz q. assert (Hq : List.length q = List.length bs) by (apply map2_length; congruence).
    apply inb_In in Hl as Hl'. apply inb_In in Hr as Hr'.
    rewrite <- (lr_shape_map2 bs 0 es Hn). fold q.
    assert (Hp : iprod (lr_shape bs q) = 0).
    { assert (Hbl : bond_size q bs "l"%char = 0) by (apply bond_size_lr; auto). assert (Hbr : bond_size q bs "r"%char = 0) by (apply bond_size_lr; auto).
      pose proof (l_first_before bs HN Hl Hr) as Hb. destruct (l_first bs); apply label_before_before in Hb; try assumption.
      - destruct (shape_two "l"%char "r"%char bs q) as [X _]; auto. rewrite X, Hbl. reflexivity.
      - destruct (shape_two "r"%char "l"%char bs q) as [X _]; auto. rewrite X, Hbr. reflexivity. }
    unfold view. cbn [shp eye2]. rewrite Hp. replace (iprod [coord bs "l" es; coord bs "r" es]) with 0.
    2:{ cbn. destruct (coord bs "l" es), (coord bs "r" es); cbn in *; lia. }
    cbn [Nat.eqb]. eexists. eexists. split; [reflexivity|]. unfold expand. cbn [shp].
    rewrite exp_ok_same; [|rewrite !rev_length; apply lr_shape_length in Hq as E; congruence|apply Forall2_rev'; apply lr_shape_exp; exact Hq]. reflexivity.
  Qed.
  Lemma no_valid bs c : forall es i, In c bs -> List.length es = List.length bs -> coord bs c es = 0 -> valid es i -> False.
  Proof.
    induction bs as [|x bs IH]; intros es i Hc Hn Hz Hi; [destruct Hc|]. destruct es as [|d es]; [discriminate|].
    apply valid_cons in Hi as (k & r & -> & Hk & Hi). cbn [coord] in Hz. destruct (Ascii.eqb_spec x c) as [->|Hx]; [lia|].
    apply (IH es r); auto. destruct Hc; congruence.
  Qed.

  (** C56: for all arguments *)
  Theorem C56_exact (shape : list nat) (bond : string) (m : init_method K) (noise : tensor K) : shp noise = shape ->
    match init_verdict shape bond m with
    | Err e => init_tensor K dstd shape bond m noise = Err e
    | Ok base => exists t, init_tensor K dstd shape bond m noise = Ok t /\ shp t = shape /\
        forall i, valid shape i -> get t i = sadd (base i) (smul (std_of m) (get noise i))
    end.
  Proof.
    intros Hs. unfold init_verdict. set (bs := list_ascii_of_string bond). change bs with (chars bond). clear bs.
    assert (Hm : (exists n rest std, m = ITuple n std rest /\ (n = "min_random_eye"%string -> rest <> [])) \/
                 (exists n, m = IName n /\ n <> "min_random_eye"%string) \/ m = IName "min_random_eye" \/ exists std, m = ITuple "min_random_eye" std []).
    { destruct m as [n|n std rest].
      - destruct (String.eqb_spec n "min_random_eye") as [->|N]; [auto|right; left; eauto].
      - destruct (String.eqb_spec n "min_random_eye") as [->|N]; [|left; exists n, rest, std; split; [reflexivity|congruence]].
        destruct rest as [|d rest]; [right; right; right; eauto|]. left. exists "min_random_eye"%string, (d :: rest), std. split; [reflexivity|discriminate]. }
    assert (Hmain : forall n std rest, (n = "min_random_eye"%string -> rest <> []) ->
      match init_verdict shape bond (ITuple n std rest) with
      | Err e => init_tensor K dstd shape bond (ITuple n std rest) noise = Err e
      | Ok base => exists t, init_tensor K dstd shape bond (ITuple n std rest) noise = Ok t /\ shp t = shape /\
          forall i, valid shape i -> get t i = sadd (base i) (smul std (get noise i))
      end).
    { intros n std rest Hrest. unfold init_verdict. cbn [method_of]. set (bs := list_ascii_of_string bond). change bs with (chars bond). clear bs.
      assert (E0 : String.eqb n "min_random_eye" && match rest with [] => true | _ => false end = false).
      { destruct (String.eqb_spec n "min_random_eye") as [->|]; [|reflexivity]. destruct rest; [destruct (Hrest eq_refl eq_refl)|reflexivity]. }
      rewrite E0. 
      destruct (Nat.eqb_spec (List.length shape) (List.length (chars bond))) as [Hn|Hn]; cbn [negb].
      2:{ unfold init_tensor. destruct (String.eqb n "min_random_eye"); [destruct rest; [discriminate E0|]|]; cbn [rbind]; apply Nat.eqb_neq in Hn; rewrite Hn; reflexivity. }
      destruct (NoDup_dec ascii_dec (chars bond)) as [HN|HN].
      2:{ assert (Hd : nodupb (chars bond) = false) by (destruct (nodupb (chars bond)) eqn:E; [|reflexivity]; apply nodupb_NoDup in E; contradiction).
          unfold init_tensor. destruct (String.eqb n "min_random_eye"); [destruct rest; [discriminate E0|]|]; cbn [rbind]; rewrite Hn, Nat.eqb_refl, Hd; reflexivity. }
      assert (Hn' : List.length shape = String.length bond) by (rewrite Hn; apply chars_length).
      pose proof (proj2 (nodupb_NoDup _) HN) as Hd.
      destruct (String.eqb_spec n "random_zero") as [->|N1].
      { destruct (proj1 (C56_random_zero K dstd shape bond std rest noise Hs Hn' HN)) as (t & Et & Ht & Gt). exists t. split; [exact Et|]. split; [exact Ht|]. intros i _. rewrite Gt. ring. }
      destruct (String.eqb n "random_eye" || String.eqb n "min_random_eye") eqn:Eor.
      2:{ apply orb_false_iff in Eor as [N2 N3]. apply String.eqb_neq in N2, N3.
          apply (C56_unknown_method K dstd shape bond n std rest noise Hn' HN). cbn. intuition congruence. }
      destruct (in_dec ascii_dec "l"%char (chars bond)) as [Hl|Hl]; [destruct (in_dec ascii_dec "r"%char (chars bond)) as [Hr|Hr]|].
      2,3: assert (Hin : inb "l"%char (chars bond) && inb "r"%char (chars bond) = false) by
             (first [apply inb_notin in Hr; rewrite Hr; apply andb_false_r|apply inb_notin in Hl; rewrite Hl; reflexivity]);
           apply String.eqb_neq in N1; unfold init_tensor; destruct (String.eqb n "min_random_eye") eqn:E3; [destruct rest; [discriminate E0|]|]; cbn [rbind];
           rewrite Hn, Nat.eqb_refl, Hd; cbn [assert_ rbind]; rewrite N1, ?E3, Eor, Hin; reflexivity.
      destruct (String.eqb_spec n "random_eye") as [->|N2].
      - pose proof (l_first_before (chars bond) HN Hl Hr) as Hb. destruct (l_first (chars bond)).
        + destruct (C56_random_eye_partial K dstd shape bond std rest noise Hs Hn' HN (or_introl Hb)) as (t & Et & Ht & Gt). exists t. split; [exact Et|]. split; [exact Ht|]. exact Gt.
        + destruct (eye_swapped (chars bond) shape Hd Hn Hb HN) as (e & e' & H1 & H2 & H3 & H4).
          apply inb_In in Hl, Hr. rewrite !coord_bond_size in H1.
          unfold init_tensor. cbn [rbind String.eqb Ascii.eqb Bool.eqb]. rewrite Hn, Nat.eqb_refl, Hd. cbn [assert_ rbind orb]. rewrite Hl, Hr. cbn [andb assert_ rbind].
          fold (lr_shape (chars bond) shape). rewrite H1. cbn [rbind]. rewrite H2. cbn [rbind].
          destruct (tzip_same sadd (fill_zeros K shape shape e') (tmap (smul std) noise) shape) as (t & Ht & Hst & Hg); [reflexivity|cbn; exact Hs|].
          exists t. split; [exact Ht|]. split; [exact Hst|]. intros i Hi. rewrite Hg by exact Hi. cbn [get fill_zeros tmap]. rewrite within_full by exact Hi. rewrite H4 by exact Hi. reflexivity.
      - cbn [orb] in Eor. apply String.eqb_eq in Eor as ->. destruct rest as [|d rest]; [destruct (Hrest eq_refl eq_refl)|].
        set (dl := coord (chars bond) "l" shape). set (dr := coord (chars bond) "r" shape).
        destruct ((d <=? Nat.min dl dr) || (dl =? dr)) eqn:Ef; cbn [orb].
        + assert (Hf : (d <= dl /\ d <= dr) \/ dl = dr).
          { apply orb_true_iff in Ef as [Ef|Ef]; [apply Nat.leb_le in Ef; lia|apply Nat.eqb_eq in Ef; auto]. }
          destruct (C56_min_random_eye_partial K dstd shape bond std d rest noise Hs Hn' HN Hl Hr Hf) as (t & Et & Ht & Gt). exists t. split; [exact Et|]. split; [exact Ht|]. exact Gt.
        + apply orb_false_iff in Ef as [Ef1 Ef2]. apply Nat.leb_gt in Ef1. apply Nat.eqb_neq in Ef2.
          destruct (Nat.eqb_spec (Nat.min dl dr) 0) as [Hz|Hz].
          * destruct (eye_null (chars bond) shape Hn Hd HN Hl Hr Hz) as (e & e' & H1 & H2).
            assert (Hvoid : forall i, valid shape i -> False).
            { intros i. destruct (Nat.eq_dec dl 0) as [E|E]; [apply (no_valid (chars bond) "l"%char); assumption|apply (no_valid (chars bond) "r"%char); [assumption..|unfold dr in *; lia]]. }
            apply inb_In in Hl, Hr. unfold dl, dr in *. rewrite !coord_bond_size in *.
            unfold init_tensor. cbn [rbind String.eqb Ascii.eqb Bool.eqb]. rewrite Hn, Nat.eqb_refl, Hd. cbn [assert_ rbind orb]. rewrite Hl, Hr. cbn [andb assert_ rbind].
            assert (Hfit : (d <=? bond_size shape (chars bond) "l") && (d <=? bond_size shape (chars bond) "r") = false).
            { destruct (Nat.leb_spec d (bond_size shape (chars bond) "l")), (Nat.leb_spec d (bond_size shape (chars bond) "r")); cbn; lia. }
            rewrite Hfit, Hz, H1. cbn [rbind]. rewrite H2. cbn [rbind].
            destruct (tzip_same sadd (fill_zeros K shape (map2 (fun c n => if is_lr c then 0 else n) (chars bond) shape) e') (tmap (smul std) noise) shape) as (t & Ht & Hst & _); [reflexivity|cbn; exact Hs|].
            exists t. split; [exact Ht|]. split; [exact Hst|]. intros i Hi. destruct (Hvoid i Hi).
          * apply (C56_min_rectangular_refuted K dstd std shape bond d rest noise Hn' HN Hl Hr); unfold dl, dr in *; lia. }
    destruct Hm as [(n & rest & std & -> & Hr)|[(n & -> & N)|[->|(std & ->)]]].
    - exact (Hmain n std rest Hr).
    - assert (E : init_tensor K dstd shape bond (IName n) noise = init_tensor K dstd shape bond (ITuple n dstd []) noise).
      { unfold init_tensor. apply String.eqb_neq in N. rewrite N. reflexivity. }
      rewrite E. specialize (Hmain n dstd [] ltac:(congruence)). unfold init_verdict in Hmain. cbn [method_of] in *. apply String.eqb_neq in N. rewrite N in *. cbn [andb] in *. exact Hmain.
    - cbn [method_of std_of andb]. change (String.eqb "min_random_eye" "min_random_eye") with true. change (String.eqb "min_random_eye" "random_zero") with false. change (String.eqb "min_random_eye" "random_eye") with false. cbn [andb orb].
      unfold init_tensor. cbn [rbind].
      destruct (Nat.eqb_spec (List.length shape) (List.length (chars bond))) as [Hn|Hn]; cbn [negb assert_ rbind]; [|reflexivity].
      destruct (NoDup_dec ascii_dec (chars bond)) as [HN|HN].
      2:{ assert (Hd : nodupb (chars bond) = false) by (destruct (nodupb (chars bond)) eqn:E; [|reflexivity]; apply nodupb_NoDup in E; contradiction). rewrite Hd. reflexivity. }
      rewrite (proj2 (nodupb_NoDup _) HN). cbn [assert_ rbind String.eqb Ascii.eqb Bool.eqb orb].
      destruct (in_dec ascii_dec "l"%char (chars bond)) as [Hl|Hl]; [apply inb_In in Hl|apply inb_notin in Hl]; rewrite Hl; cbn [andb]; [|reflexivity].
      destruct (in_dec ascii_dec "r"%char (chars bond)) as [Hr|Hr]; [apply inb_In in Hr|apply inb_notin in Hr]; rewrite Hr; reflexivity.
    - reflexivity.
  Qed.
End P.
(** the branches of the verdict are all reached *)
Example C56_exact_met :
  let v := fun (shape : list nat) (bond : string) (m : init_method Z_cring) (i : list nat) => match init_verdict Z_cring shape bond m with Ok f => (f i, ValueError) | Err e => ((-1)%Z, e) end in
  v [3; 2] "rl"%string (IName "random_eye") [1; 1] = (0%Z, ValueError) /\ v [3; 2] "rl"%string (IName "random_eye") [2; 0] = (1%Z, ValueError) /\
  v [3; 2] "lr"%string (IName "random_eye") [1; 1] = (1%Z, ValueError) /\ v [3; 2] "lo"%string (IName "random_eye") [1; 1] = ((-1)%Z, AssertionError) /\
  v [3; 3] "lr"%string (ITuple "min_random_eye" (1%Z : Z_cring) [2]) [2; 2] = (0%Z, ValueError) /\ v [3; 2] "lr"%string (ITuple "min_random_eye" (1%Z : Z_cring) [3]) [1; 1] = ((-1)%Z, RuntimeError) /\
  v [3; 2] "lr"%string (IName "min_random_eye") [1; 1] = ((-1)%Z, NameError) /\ v [3; 2] "lr"%string (ITuple "min_random_eye" (1%Z : Z_cring) []) [1; 1] = ((-1)%Z, IndexError).
Proof.
  assert (N : forall s, In s ["rl"; "lr"; "lo"]%string -> NoDup (list_ascii_of_string s)).
  { intros s [<-|[<-|[<-|[]]]]; repeat constructor; cbn; intuition congruence. }
  cbv zeta. unfold init_verdict. 
  destruct (NoDup_dec ascii_dec (list_ascii_of_string "rl")) as [_|F]; [|destruct F; apply N; cbn; auto].
  destruct (NoDup_dec ascii_dec (list_ascii_of_string "lr")) as [_|F]; [|destruct F; apply N; cbn; auto].
  destruct (NoDup_dec ascii_dec (list_ascii_of_string "lo")) as [_|F]; [|destruct F; apply N; cbn; auto].
  vm_compute. repeat split.
Qed.
Print Assumptions C56_exact.
