(** * EinsumProofs: the einsum calls of the source, evaluated for symbolic sizes. *)
From Verif Require Import Base Scalars Tensor.

Ltac eins_open :=
  unfold einsum;
  match goal with |- context [parse_eins ?s] =>
    let r := eval vm_compute in (parse_eins s) in change (parse_eins s) with r end;
  cbv iota beta;
  cbn [add_ops];
  repeat match goal with H : shp ?t = _ |- context [shp ?t] => rewrite H end;
  cbn [add_labels elook Ascii.eqb Bool.eqb app eset add_ops mapopt inlabels existsb filter fst snd negb orb andb];
  repeat (rewrite ?bdim_refl;
          cbn [add_labels elook Ascii.eqb Bool.eqb app eset add_ops mapopt inlabels existsb filter fst snd negb orb andb]).
Ltac eins_get :=
  cbn [get sumover combine evalops];
  unfold eval1;
  repeat match goal with H : shp ?t = _ |- context [shp ?t] => rewrite H end;
  cbn [map2 elook Ascii.eqb Bool.eqb].
Ltac eins_sum :=
  repeat (apply bsum_ext; intros);
  repeat rewrite bidx_valid by assumption; try reflexivity.

Section Eins.
  Context {S : sops}.
  Implicit Types t : tensor S.

  Lemma eins_bi_ide (v c : tensor S) b i d e : shp v = [b; i] -> shp c = [i; d; e] ->
    exists t, einsum "bi,ide->bde" [v; c] = Ok t /\ shp t = [b; d; e] /\
      forall x y z, x < b -> y < d -> z < e ->
        get t [x; y; z] = bsum i (fun k => smul (get v [x; k]) (get c [k; y; z])).
  Proof.
    intros Hv Hc. eins_open. eexists. split; [reflexivity|]. split; [reflexivity|].
    intros. eins_get. eins_sum.
  Qed.
  Lemma eins_bti_ide (v c : tensor S) b n i d e : shp v = [b; n; i] -> shp c = [i; d; e] ->
    exists t, einsum "bti,ide->btde" [v; c] = Ok t /\ shp t = [b; n; d; e] /\
      forall x p y z, x < b -> p < n -> y < d -> z < e ->
        get t [x; p; y; z] = bsum i (fun k => smul (get v [x; p; k]) (get c [k; y; z])).
  Proof.
    intros Hv Hc. eins_open. eexists. split; [reflexivity|]. split; [reflexivity|].
    intros. eins_get. eins_sum.
  Qed.
  Lemma eins_bti_tide (v c : tensor S) b n i d e : shp v = [b; n; i] -> shp c = [n; i; d; e] ->
    exists t, einsum "bti,tide->btde" [v; c] = Ok t /\ shp t = [b; n; d; e] /\
      forall x p y z, x < b -> p < n -> y < d -> z < e ->
        get t [x; p; y; z] = bsum i (fun k => smul (get v [x; p; k]) (get c [p; k; y; z])).
  Proof.
    intros Hv Hc. eins_open. eexists. split; [reflexivity|]. split; [reflexivity|].
    intros. eins_get. eins_sum.
  Qed.
  Lemma eins_transfer (c m cc : tensor S) i D : shp c = [i; D; D] -> shp m = [D; D] -> shp cc = [i; D; D] ->
    exists t, einsum "ilr,lp,ipq->rq" [c; m; cc] = Ok t /\ shp t = [D; D] /\
      forall r q, r < D -> q < D ->
        get t [r; q] = bsum i (fun k => bsum D (fun l => bsum D (fun p =>
           smul (get c [k; l; r]) (smul (get m [l; p]) (get cc [k; p; q]))))).
  Proof.
    intros Hc Hm Hcc. eins_open. eexists. split; [reflexivity|]. split; [reflexivity|].
    intros. eins_get. eins_sum.
  Qed.
  Lemma eins_transfer_diag (w c m cc : tensor S) i D : shp w = [i] -> shp c = [i; D; D] -> shp m = [D; D] -> shp cc = [i; D; D] ->
    exists t, einsum "i,ilr,lp,ipq->rq" [w; c; m; cc] = Ok t /\ shp t = [D; D] /\
      forall r q, r < D -> q < D ->
        get t [r; q] = bsum i (fun k => bsum D (fun l => bsum D (fun p =>
           smul (get w [k]) (smul (get c [k; l; r]) (smul (get m [l; p]) (get cc [k; p; q])))))).
  Proof.
    intros Hw Hc Hm Hcc. eins_open. eexists. split; [reflexivity|]. split; [reflexivity|].
    intros. eins_get. eins_sum.
  Qed.
  Lemma eins_transfer_mat (w c m cc : tensor S) i D : shp w = [i; i] -> shp c = [i; D; D] -> shp m = [D; D] -> shp cc = [i; D; D] ->
    exists t, einsum "ij,ilr,lp,jpq->rq" [w; c; m; cc] = Ok t /\ shp t = [D; D] /\
      forall r q, r < D -> q < D ->
        get t [r; q] = bsum i (fun k => bsum i (fun k' => bsum D (fun l => bsum D (fun p =>
           smul (get w [k; k']) (smul (get c [k; l; r]) (smul (get m [l; p]) (get cc [k'; p; q]))))))).
  Proof.
    intros Hw Hc Hm Hcc. eins_open. eexists. split; [reflexivity|]. split; [reflexivity|].
    intros. eins_get. eins_sum.
  Qed.
  Lemma eins_sandwich (r m q : tensor S) D : shp r = [D] -> shp m = [D; D] -> shp q = [D] ->
    exists t, einsum "r,rq,q->" [r; m; q] = Ok t /\ shp t = [] /\
        get t [] = bsum D (fun k => bsum D (fun l => smul (get r [k]) (smul (get m [k; l]) (get q [l])))).
  Proof.
    intros Hr Hm Hq. eins_open. eexists. split; [reflexivity|]. split; [reflexivity|].
    intros. eins_get. eins_sum.
  Qed.
  Lemma eins_outer (a c : tensor S) b i j : shp a = [b; i] -> shp c = [b; j] ->
    exists t, einsum "bi,bj->bij" [a; c] = Ok t /\ shp t = [b; i; j] /\
      forall x y z, x < b -> y < i -> z < j ->
        get t [x; y; z] = smul (get a [x; y]) (get c [x; z]).
  Proof.
    intros Ha Hc. eins_open. eexists. split; [reflexivity|]. split; [reflexivity|].
    intros. eins_get. eins_sum.
  Qed.
End Eins.
