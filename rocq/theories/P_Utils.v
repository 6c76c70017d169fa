(** * P_Utils: properties C56-C58 (torchmps/utils.py: init_tensor, joint_shuffle, load_HV_data) *)
From Coq Require Import Permutation.
From Verif Require Import Base Scalars Tensor Contractables Utils UtilsSpec UtilsProofs HVProofs.

(** ** C56.  [noise] is the value of torch.randn(shape); [coord bs c l] is the entry of [l] at
    the position of the label [c] (UtilsSpec.v). *)
Section C56.
  Variable K : cring.
  Variable dstd : K.
  Theorem C56_random_zero shape bond std rest noise : shp noise = shape ->
    List.length shape = String.length bond -> NoDup (chars bond) ->
    (exists t, init_tensor K dstd shape bond (ITuple "random_zero" std rest) noise = Ok t /\ shp t = shape /\
       forall i, get t i = smul std (get noise i)) /\
    (exists t, init_tensor K dstd shape bond (IName "random_zero") noise = Ok t /\ shp t = shape /\
       forall i, get t i = smul dstd (get noise i)).
  Proof.
    intros Hs Hn Hnd. apply nodupb_NoDup in Hnd. rewrite <- chars_length in Hn.
    split; (eexists; split; [unfold init_tensor; cbn [rbind String.eqb Ascii.eqb Bool.eqb];
      rewrite Hn, Nat.eqb_refl, Hnd; cbn [assert_ rbind]; reflexivity|split; [exact Hs|reflexivity]]).
  Qed.
  (** identity in (l, r) plus noise, provided l stands before r or the two bonds are equal *)
  Theorem C56_random_eye_partial shape bond std rest noise : shp noise = shape ->
    List.length shape = String.length bond -> NoDup (chars bond) ->
    label_before "l" "r" (chars bond) \/
      (label_before "r" "l" (chars bond) /\ coord (chars bond) "l" shape = coord (chars bond) "r" shape) ->
    exists t, init_tensor K dstd shape bond (ITuple "random_eye" std rest) noise = Ok t /\ shp t = shape /\
      forall i, valid shape i ->
        get t i = sadd (if coord (chars bond) "l" i =? coord (chars bond) "r" i then s1 else s0) (smul std (get noise i)).
  Proof. intros. apply init_random_eye; assumption. Qed.
  (** a string instead of a tuple means the default standard deviation *)
  Theorem C56_random_eye_default shape bond rest noise :
    init_tensor K dstd shape bond (IName "random_eye") noise = init_tensor K dstd shape bond (ITuple "random_eye" dstd rest) noise.
  Proof. reflexivity. Qed.
  (** identity truncated to min(init_dim, bond dimensions) plus noise, provided init_dim fits
      or the two bonds are equal *)
  Theorem C56_min_random_eye_partial shape bond std d rest noise : shp noise = shape ->
    List.length shape = String.length bond -> NoDup (chars bond) ->
    let dl := coord (chars bond) "l" shape in let dr := coord (chars bond) "r" shape in
    In "l"%char (chars bond) -> In "r"%char (chars bond) ->
    (d <= dl /\ d <= dr) \/ dl = dr ->
    exists t, init_tensor K dstd shape bond (ITuple "min_random_eye" std (d :: rest)) noise = Ok t /\ shp t = shape /\
      forall i, valid shape i -> get t i =
        sadd (if (coord (chars bond) "l" i =? coord (chars bond) "r" i)
                 && (coord (chars bond) "l" i <? Nat.min d (Nat.min dl dr)) then s1 else s0) (smul std (get noise i)).
  Proof. intros. apply init_min_random_eye; assumption. Qed.
  Theorem C56_unknown_method shape bond name std rest noise :
    List.length shape = String.length bond -> NoDup (chars bond) ->
    ~ In name ["random_zero"; "random_eye"; "min_random_eye"]%string ->
    init_tensor K dstd shape bond (ITuple name std rest) noise = Err ValueError /\
    init_tensor K dstd shape bond (IName name) noise = Err ValueError.
  Proof.
    intros Hn Hnd Hname. apply nodupb_NoDup in Hnd. rewrite <- chars_length in Hn.
    assert (E : String.eqb name "random_zero" = false /\ String.eqb name "random_eye" = false /\ String.eqb name "min_random_eye" = false).
    { rewrite !String.eqb_neq. split; [|split]; intros ->; apply Hname; cbn; auto. }
    destruct E as (E1 & E2 & E3).
    unfold init_tensor. rewrite E3. cbn [rbind]. rewrite Hn, Nat.eqb_refl, Hnd. cbn [assert_ rbind]. rewrite E1, E2, E3. split; reflexivity.
  Qed.
  Theorem C56_bad_bond_string shape bond m noise :
    (List.length shape <> String.length bond \/ ~ NoDup (chars bond)) ->
    exists e, init_tensor K dstd shape bond m noise = Err e.
  Proof.
    intros H. unfold init_tensor. destruct m as [name|name std rest]; [|destruct (String.eqb name "min_random_eye"); [destruct rest|]]; cbn [rbind]; eauto;
    rewrite <- chars_length in H; destruct (Nat.eqb_spec (List.length shape) (List.length (chars bond))) as [E|E]; cbn [assert_ rbind]; eauto;
    destruct H as [H|H]; try contradiction;
    destruct (nodupb (chars bond)) eqn:En; cbn [assert_ rbind]; eauto; apply nodupb_NoDup in En; contradiction.
  Qed.
End C56.
(** "r" before "l" with different bond dimensions: the identity is reshaped into something
    else.  Here shape [3, 2], bond_str "rl", no noise: the 2 x 3 identity matrix is read row
    by row into a 3 x 2 matrix. *)
Theorem C56_swapped_bonds_refuted : exists (shape : list nat) (t : tensor Z_cring),
  init_tensor Z_cring 0%Z shape "rl" (IName "random_eye") (tconst shape 0%Z) = Ok t /\ shp t = shape /\
  ~ (forall i, valid shape i -> get t i = (if coord (chars "rl") "l" i =? coord (chars "rl") "r" i then 1%Z else 0%Z)).
Proof.
  exists [3; 2]. eexists. split; [vm_compute; reflexivity|]. split; [reflexivity|].
  intros H. specialize (H [1; 1] ltac:(repeat constructor)). vm_compute in H. discriminate.
Qed.
(** min_random_eye raises when init_dim exceeds one bond and the bonds differ *)
Theorem C56_min_rectangular_refuted (K : cring) (dstd std : K) shape bond d rest noise :
  List.length shape = String.length bond -> NoDup (chars bond) ->
  let dl := coord (chars bond) "l" shape in let dr := coord (chars bond) "r" shape in
  In "l"%char (chars bond) -> In "r"%char (chars bond) -> 0 < dl -> 0 < dr -> dl <> dr -> dl < d \/ dr < d ->
  init_tensor K dstd shape bond (ITuple "min_random_eye" std (d :: rest)) noise = Err RuntimeError.
Proof.
  intros Hn Hnd dl dr Hl Hr H0 H1 Hne Hd. unfold dl, dr in *. clear dl dr. rewrite !coord_bond_size in *.
  rewrite <- chars_length in Hn. set (bs := chars bond) in *. set (dl := bond_size shape bs "l"%char) in *. set (dr := bond_size shape bs "r"%char) in *.
  apply inb_In in Hl as Hl'. apply inb_In in Hr as Hr'. apply nodupb_NoDup in Hnd as Hnd'.
  unfold init_tensor. cbn [rbind String.eqb Ascii.eqb Bool.eqb]. fold bs. rewrite Hn, Nat.eqb_refl, Hnd'.
  cbn [assert_ rbind orb]. rewrite Hl', Hr'. cbn [andb assert_ rbind]. fold dl. fold dr.
  assert (E : (d <=? dl) && (d <=? dr) = false) by (destruct (Nat.leb_spec d dl), (Nat.leb_spec d dr); cbn; lia).
  rewrite E. set (q := Nat.min dl dr).
  set (es := map2 (fun c n => if is_lr c then q else n) bs shape).
  assert (Hes : List.length es = List.length bs) by (apply map2_length; congruence).
  assert (Hbl : bond_size es bs "l"%char = q) by (apply bond_size_lr; auto).
  assert (Hbr : bond_size es bs "r"%char = q) by (apply bond_size_lr; auto).
  assert (Hp : iprod (map (fun c => if is_lr c then q else 1) bs) = q * q).
  { rewrite <- (lr_shape_map2 bs q shape Hn). fold es.
    assert (Hlb : label_before "l"%char "r"%char bs \/ label_before "r"%char "l"%char bs).
    { destruct (in_split _ _ Hl) as (u & v & Eu).
      assert (Hlr : In "r"%char (u ++ v)).
      { rewrite Eu in Hr. apply in_app_or in Hr as [H|[H|H]]; [apply in_or_app; left; exact H|discriminate|apply in_or_app; right; exact H]. }
      apply in_app_or in Hlr as [H|H]; destruct (in_split _ _ H) as (x & y & ->).
      - right. exists x, y, v. rewrite Eu, <- app_assoc. reflexivity.
      - left. exists u, x, y. exact Eu. }
    destruct Hlb as [H|H]; apply label_before_before in H; try assumption.
    - destruct (shape_two "l"%char "r"%char bs es) as [X _]; auto. rewrite X, Hbl, Hbr. reflexivity.
    - destruct (shape_two "r"%char "l"%char bs es) as [X _]; auto. rewrite X, Hbl, Hbr. reflexivity. }
  unfold view. rewrite Hp. cbn [shp eye2]. replace (iprod [dl; dr]) with (dl * dr) by (cbn; lia).
  destruct (Nat.eqb_spec (dl * dr) (q * q)) as [X|X]; [|reflexivity].
  exfalso. unfold q in X. destruct (Nat.lt_ge_cases dl dr); [rewrite (Nat.min_l dl dr) in X by lia|rewrite (Nat.min_r dl dr) in X by lia]; nia.
Qed.
(** non-vacuity: the shapes MPS uses ("olr" for the output core), a truncated identity, and a
    rectangular case that raises *)
Example C56_example_shapes : label_before "l" "r" (chars "olr") /\ NoDup (chars "olr") /\ coord (chars "olr") "l" [10; 5; 7] = 5.
Proof.
  split; [exists ["o"%char], [], []; reflexivity|]. split; [|reflexivity]. apply nodupb_NoDup. reflexivity.
Qed.
Example C56_example_min :
  init_tensor Z_cring 0%Z [2; 3; 3] "slr" (ITuple (K := Z_cring) "min_random_eye" 1%Z [2]) (tconst [2; 3; 3] 7%Z) <> Err RuntimeError /\
  match init_tensor Z_cring 0%Z [2; 3; 3] "slr" (ITuple (K := Z_cring) "min_random_eye" 1%Z [2]) (tconst [2; 3; 3] 7%Z) with
  | Ok t => get t [1; 1; 1] = 8%Z /\ get t [1; 2; 2] = 7%Z /\ get t [0; 0; 1] = 7%Z
  | Err _ => False
  end.
Proof. split; [vm_compute; discriminate|]. vm_compute. repeat split. Qed.
Example C56_example_raises :
  init_tensor Z_cring 0%Z [2; 3] "lr" (ITuple (K := Z_cring) "min_random_eye" 1%Z [5]) (tconst [2; 3] 0%Z) = Err RuntimeError.
Proof. vm_compute. reflexivity. Qed.

(** ** C58.  [perm n] is the rearrangement numpy's shuffle makes of n rows right after
    np.random.seed(0): some permutation that depends only on the number of rows. *)
Section C58.
  Variable perm : nat -> list nat.
  Hypothesis Hperm : forall n, Permutation (perm n) (seq 0 n).
  Theorem C58_joint_shuffle {A B} (data : list A) (labels : list B) da db : List.length data = List.length labels ->
    let '(data', labels') := joint_shuffle perm data labels da db in
    Permutation data' data /\ Permutation labels' labels /\
    List.length data' = List.length labels' /\
    Permutation (combine data' labels') (combine data labels) /\
    (forall k, k < List.length data -> exists j, j < List.length data /\ nth k data' da = nth j data da /\ nth k labels' db = nth j labels db).
  Proof.
    intros H. unfold joint_shuffle. split; [apply shuffle_perm; exact Hperm|]. split; [apply shuffle_perm; exact Hperm|].
    split; [rewrite !shuffle_len by exact Hperm; exact H|]. split.
    - rewrite shuffle_combine by assumption. apply shuffle_perm. exact Hperm.
    - intros k Hk. exists (nth k (perm (List.length data)) 0).
      assert (Hlt : k < List.length (perm (List.length data))) by (rewrite perm_len by exact Hperm; exact Hk).
      split; [apply (perm_lt perm Hperm), nth_In, Hlt|]. unfold shuffle. rewrite <- H.
      assert (G : forall {X} (f : nat -> X) l d n, n < List.length l -> nth n (map f l) d = f (nth n l 0)).
      { intros X f l d n Hn. rewrite (nth_indep _ d (f 0)) by (rewrite map_length; exact Hn). apply map_nth. }
      rewrite !G by exact Hlt. split; reflexivity.
  Qed.

  (** ** C57 *)
  Theorem C57_load_HV_data L : 2 <= L ->
    let '((train_images, train_labels), (test_images, test_labels)) := load_HV_data perm L in
    let images := test_images ++ train_images in
    let labels := test_labels ++ train_labels in
    (* numbers *)
    List.length images = 2 * (2 ^ L - 2) /\ List.length labels = List.length images /\
    4 * List.length test_images = List.length images /\ List.length test_labels = List.length test_images /\
    (* every image has the right label *)
    (forall k d, k < List.length images ->
       zero_one (nth k images d) /\ not_constant (nth k images d) /\
       ((nth k labels 0 = 0 /\ row_constant L (nth k images d)) \/ (nth k labels 0 = 1 /\ col_constant L (nth k images d)))) /\
    (* the images are pairwise different, and no image of these kinds is missing *)
    (forall k k' d, k < List.length images -> k' < List.length images -> teq (nth k images d) (nth k' images d) -> k = k') /\
    (forall t d, zero_one t -> not_constant t -> row_constant L t \/ col_constant L t ->
       exists k, k < List.length images /\ teq t (nth k images d)) /\
    (* balance *)
    count_occ_nat labels 0 = 2 ^ L - 2 /\ count_occ_nat labels 1 = 2 ^ L - 2.
  Proof.
    intros HL. unfold load_HV_data. destruct (sizes L HL) as (E1 & E2 & E3). rewrite E2, E3.
    pose proof (images_map L HL (npat L) 0) as EI. pose proof (labels_map L HL (npat L) 0) as EL.
    cbn [Nat.add Nat.mul] in EI, EL. rewrite EI, EL, !shuffle_map by exact Hperm. clear EI EL.
    cbv zeta. rewrite !firstn_skipn.
    assert (N : npat L + (npat L + 0) = 2 * npat L) by lia. rewrite N.
    set (p := perm (2 * npat L)).
    assert (Hp : List.length p = 2 * npat L) by (unfold p; rewrite perm_len by exact Hperm; reflexivity).
    assert (Hlt : forall k, k < 2 * npat L -> nth k p 0 < 2 * npat L).
    { intros k Hk. apply (perm_lt perm Hperm). apply nth_In. fold p. lia. }
    assert (G : forall {X} (f : nat -> X) d k, k < 2 * npat L -> nth k (map f p) d = f (nth k p 0)).
    { intros X f d k Hk. rewrite (nth_indep _ d (f 0)) by (rewrite map_length; lia). apply map_nth. }
    rewrite !map_length, !firstn_length, !map_length, Hp.
    assert (Hmin : Nat.min (2 ^ (L - 1) - 1) (2 * npat L) = 2 ^ (L - 1) - 1) by lia. rewrite Hmin.
    split; [reflexivity|]. split; [reflexivity|]. split; [exact E1|]. split; [reflexivity|]. split.
    { intros k d Hk. rewrite !G by exact Hk. apply img_ok; [exact HL|]. apply Hlt, Hk. }
    split.
    { intros k k' d Hk Hk' Ht. rewrite !G in Ht by assumption. apply img_inj in Ht; auto.
      apply (proj1 (NoDup_nth p 0)); [apply perm_nodup; exact Hperm|lia|lia|exact Ht]. }
    split.
    { intros t d H1 H2 H3. destruct (img_complete L HL t H1 H2 H3) as (m & Hm & Ht).
      assert (Hin : In m p). { apply (Permutation_in _ (Permutation_sym (Hperm (2 * npat L)))). apply in_seq. lia. }
      apply (In_nth _ _ 0) in Hin as (k & Hk & Ek). exists k. split; [lia|]. rewrite G by lia. rewrite Ek. exact Ht. }
    unfold count_occ_nat.
    assert (P : Permutation (map (fun k => k mod 2) p) (map (fun k => k mod 2) (seq (2 * 0) (2 * npat L)))).
    { apply Permutation_map. apply Hperm. }
    rewrite !(proj1 (Permutation_count_occ Nat.eq_dec _ _) P). apply (count_mod2 L HL).
  Qed.
End C58.
(** non-vacuity: reversing the rows is such a permutation *)
Example C57_example_perm : forall n, Permutation (rev (seq 0 n)) (seq 0 n).
Proof. intros n. symmetry. apply Permutation_rev. Qed.
Example C57_example_data : let '((_, trl), (tei, tel)) := load_HV_data (fun n => rev (seq 0 n)) 2 in
  tel = [1] /\ trl = [0; 1; 0] /\ List.length tei = 1.
Proof. vm_compute. auto. Qed.
Example C58_example : joint_shuffle (fun n => rev (seq 0 n)) [10; 20; 30] [1; 2; 3] 0 0 = ([30; 20; 10], [3; 2; 1]).
Proof. reflexivity. Qed.

Print Assumptions C56_random_zero.
Print Assumptions C56_random_eye_partial.
Print Assumptions C56_random_eye_default.
Print Assumptions C56_min_random_eye_partial.
Print Assumptions C56_unknown_method.
Print Assumptions C56_bad_bond_string.
Print Assumptions C56_swapped_bonds_refuted.
Print Assumptions C56_min_rectangular_refuted.
Print Assumptions C57_load_HV_data.
Print Assumptions C58_joint_shuffle.
