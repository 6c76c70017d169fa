(** * P_CtorExact: the exact outcome of the constructors of MPS for every label_site and path (C49, C60), and of
    the products of a ContractableList and a contractable (C45) *)
From Coq Require Import Reals.
From Verif Require Import Base Scalars Tensor Contractables Utils TorchMps Adaptive TmSpec TmProofs TmFinal P_Mps P_Mps3 P_Ad.

(** label_site is absent or in 0..input_dim *)
Definition label_in (N : nat) (label : option Z) : bool :=
  match label with None => true | Some z => (0 <=? z)%Z && (z <=? Z.of_nat N)%Z end.
(** the exception that a path argument leads to *)
Definition path_verdict (N : nat) (p : mpath) : option exn :=
  match p with
  | PNone | PList [] | PTensor [] => None
  | PList l => if List.length l =? N then None else Some AssertionError
  | PTensor [z] => if (z =? 0)%Z || (N =? 1) then None else Some AssertionError
  | PTensor _ => Some RuntimeError
  end.
Lemma path_check N p : check_path N p = match path_verdict N p with None => Ok tt | Some e => Err e end.
Proof.
  unfold check_path, path_true, path_list, path_verdict. destruct p as [|[|k p]|[|z [|z' p]]]; cbn [rbind List.length Nat.eqb negb]; try reflexivity.
  - destruct N as [|N]; [reflexivity|]. cbn. destruct (List.length p =? N); reflexivity.
  - destruct (z =? 0)%Z; cbn [negb orb]; [reflexivity|]. destruct N as [|[|N]]; reflexivity.
Qed.
Lemma label_check N label : if label_in N label then exists l, label_of N label = Ok l else label_of N label = Err AssertionError.
Proof.
  unfold label_in, label_of. destruct label as [z|].
  - destruct (_ && _); cbn [assert_ rbind]; eauto.
  - replace ((0 <=? Z.of_nat (N / 2))%Z && (Z.of_nat (N / 2) <=? Z.of_nat N)%Z) with true; [cbn; eauto|].
    symmetry. apply andb_true_iff. split; apply Z.leb_le; [lia|]. assert (N / 2 <= N) by (apply Nat.div_le_upper_bound; lia). lia.
Qed.
Section P.
  Variable K : cring.
  (** C60: the constructor, for every path argument and label_site *)
  Theorem C60_exact N O D F per par label p std ub rnd :
    if label_in N label then
      match path_verdict N p with
      | None => exists m0, mps_init K N O D F per par label p std ub rnd = Ok m0
      | Some e => mps_init K N O D F per par label p std ub rnd = Err e
      end
    else mps_init K N O D F per par label p std ub rnd = Err AssertionError.
  Proof.
    pose proof (label_check N label) as Hl. unfold mps_init. destruct (label_in N label) eqn:El; [|rewrite Hl; reflexivity]. destruct Hl as (l & Hl).
    assert (Hr : match label with None => True | Some z => (0 <= z <= Z.of_nat N)%Z end).
    { destruct label as [z|]; [|exact Logic.I]. cbn in El. apply andb_true_iff in El as [E1 E2]. apply Z.leb_le in E1, E2. lia. }
    destruct (C34_constructor K N O D F per par label PNone std ub rnd Hr (or_introl (or_introl eq_refl))) as (m0 & E & _).
    unfold mps_init in E. rewrite Hl in E |- *. cbn [rbind] in E |- *. destruct (build_modules K _ _ _ _ _ _ _ _ _) as [mods|]; cbn [rbind] in *; [|discriminate].
    destruct (region_len K mods =? N); cbn [assert_ rbind] in *; [|discriminate]. rewrite path_check. destruct (path_verdict N p); cbn [rbind]; eauto.
  Qed.
End P.
(** C49: the constructor with adaptive_mode=True *)
Theorem C49_exact N O D F per par label p std cutoff thr rnd :
  if label_in N label && negb (N =? 1) then
    match path_verdict N p with
    | None => exists m0, ad_init N O D F per par label p std cutoff thr rnd = Ok m0
    | Some e => ad_init N O D F per par label p std cutoff thr rnd = Err e
    end
  else ad_init N O D F per par label p std cutoff thr rnd = Err AssertionError.
Proof.
  destruct (Nat.eqb_spec N 1) as [->|N1]; [rewrite andb_false_r; apply C49_one_input_refuted|]. rewrite andb_true_r.
  pose proof (label_check N label) as Hl. destruct (label_in N label); [|unfold ad_init; rewrite Hl; reflexivity]. destruct Hl as (l & Hl).
  assert (Hok : exists m0, ad_init N O D F per par label PNone std cutoff thr rnd = Ok m0).
  { destruct (Nat.eq_dec N 0) as [->|N0]; [|apply (C49_two_inputs_partial N O D F per par label PNone std cutoff thr rnd l); [lia|exact Hl|reflexivity]].
    unfold ad_init. rewrite Hl. cbn [rbind]. destruct (label_range 0 label l Hl) as [_ Hle]. assert (l = 0) as -> by lia.
    destruct (build_ok R_cring true 0 O D F 0 std false rnd) as (mods & Eb). rewrite Eb. cbn [rbind].
    unfold build_modules in Eb. change (build_region R_cring true O D F std false rnd 0 0) with (Ok (A := list (module R_cring)) []) in Eb.
    change (build_region R_cring true O D F std false rnd 2 (0 - 0)) with (Ok (A := list (module R_cring)) []) in Eb. cbn [rbind] in Eb.
    match type of Eb with rbind ?x _ = _ => destruct x as [t|]; cbn [rbind] in Eb; [|discriminate] end.
    injection Eb as <-. eexists. reflexivity. }
  destruct Hok as (m0 & E). unfold ad_init in E |- *. rewrite Hl in E |- *. cbn [rbind] in E |- *.
  destruct (build_modules R_cring _ _ _ _ _ _ _ _ _) as [mods|]; cbn [rbind] in *; [|discriminate].
  destruct (region_init mods cutoff thr) as [g|]; cbn [rbind] in *; [|discriminate].
  destruct (region_len R_cring (g_active g) =? N); cbn [assert_ rbind] in *; [|discriminate]. rewrite path_check. destruct (path_verdict N p); cbn [rbind]; eauto.
Qed.
(** the error of multiplying an item by a bare tensor *)
Definition item_error {S : sops} (item : contr S) : exn :=
  match item with
  | CList _ => AssertionError
  | Atom i => match a_cls i with KScalar => AttributeError | _ => TypeError end
  | Raw _ => TypeError
  end.
(** C45: every product of a list and a contractable, from either side.  The item next to the contractable decides about the error;
    a Scalar or an OutputMat on the left refuses every list *)
Theorem C45_exact (S : sops) (l : list (contr S)) (a : atom S) g :
  mul S (CList l) (Atom a) g = (match rev l with [] => Ok (Raw (a_ten a)) | item :: _ => Err (item_error item) end, g) /\
  mul S (Atom a) (CList l) g =
    (match a_cls a with
     | KScalar => Err AttributeError
     | KOutputMat => Err TypeError
     | _ => match l with [] => Ok (Raw (a_ten a)) | item :: _ => Err (item_error item) end
     end, g).
Proof.
  destruct a as [k t bd]. split.
  - unfold mul. cbn [same_class right_first]. unfold or_else, mbind. cbn [lmul_method list_mul]. destruct (rev l) as [|[i| |] r]; reflexivity.
  - destruct k; unfold mul; cbn [same_class right_first a_cls]; unfold or_else, mbind; cbn [lmul_method rmul_method base_mul region_mul outmat_mul edge_mul scalar_mul list_mul a_cls ret raise];
      destruct l as [|[i| |] r]; reflexivity.
Qed.
Example path_verdicts : map (path_verdict 3) [PNone; PList []; PList [2; 0; 1]%Z; PList [0]%Z; PTensor []; PTensor [0]%Z; PTensor [1]%Z; PTensor [2; 0; 1]%Z]
  = [None; None; None; Some AssertionError; None; None; Some AssertionError; Some RuntimeError].
Proof. reflexivity. Qed.
Print Assumptions C60_exact.
Print Assumptions C49_exact.
Print Assumptions C45_exact.
