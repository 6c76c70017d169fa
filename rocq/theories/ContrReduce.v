(** * ContrReduce: ContractableList.reduce computes the ordered product *)
From Verif Require Import Base Scalars Tensor Spec LinAlg Contractables ContrSpec ContrProofs.

Section P.
  Variable K : cring.
  Add Ring Kr : (rth K).
  Notation at_ := (atom K).

  Lemma typed_ncols (a : at_) B r c out : typed a B r c out -> ncols a = c.
  Proof. intros H. inversion H as [? ? ? E|? ? ? E|? ? ? ? E|? ? ? ? E|? ? ? ? ? E|? ? ? ? E|? ? ? ? E|? ? ? E|? ? E]; subst; unfold ncols; cbn [a_bond a_ten String.eqb Ascii.eqb Bool.eqb andb]; rewrite ?E; reflexivity. Qed.
  Lemma meaning_none (a : at_) B r c b o : typed a B r c None -> meaning a b o = meaning a b 0.
  Proof. intros H. inversion H; reflexivity. Qed.
  Lemma product_none B r l c b o : chain_typed (S := K) B r l c None -> product l b o = product l b 0.
  Proof.
    intros H. remember None as out eqn:Eo. induction H as [r|a l r m c out Ha H IH|a l r m c O Ha H IH]; [reflexivity| |discriminate].
    subst out. specialize (IH eq_refl). unfold product in *. cbn [map chain]. rewrite IH. rewrite (meaning_none a B r m b o Ha). reflexivity.
  Qed.
  Definition oplus (o1 o2 : option nat) := match o1 with Some n => Some n | None => o2 end.

  Lemma product_cons a l b o i j : product (S := K) (a :: l) b o i j = mmul (ncols a) (meaning a b o) (product l b o) i j.
  Proof. unfold product. cbn [map]. apply chain_cons. Qed.

  Lemma chain_split B x y post : forall pre r c out, chain_typed (S := K) B r (pre ++ x :: y :: post) c out ->
    exists r' m c' o1 o2, typed x B r' m o1 /\ typed y B m c' o2 /\ (o1 = None \/ o2 = None) /\
      (oplus o1 o2 = None \/ oplus o1 o2 = out) /\
      forall z, typed z B r' c' (oplus o1 o2) ->
        (forall b o i j, b < B -> o < osize (oplus o1 o2) -> i < r' -> j < c' ->
           meaning z b o i j = mmul m (meaning x b o) (meaning y b o) i j) ->
        chain_typed B r (pre ++ z :: post) c out /\
        forall b o i j, b < B -> o < osize out -> i < r ->
          product (pre ++ z :: post) b o i j = product (pre ++ x :: y :: post) b o i j.
  Proof.
    assert (Base : forall r m c' r0 o1 o2 out z, typed x B r m o1 -> typed y B m c' o2 ->
        typed z B r c' (oplus o1 o2) -> (oplus o1 o2 = None \/ oplus o1 o2 = out) -> (o1 = None \/ o2 = None) ->
        (forall b o i j, b < B -> o < osize (oplus o1 o2) -> i < r -> j < c' ->
           meaning z b o i j = mmul m (meaning x b o) (meaning y b o) i j) -> r0 = r ->
        forall b o i j, b < B -> o < osize out -> i < r0 ->
          product (z :: post) b o i j = product (x :: y :: post) b o i j).
    { intros r m c' r0 o1 o2 out z Hx Hy Hz Ho Ho12 Hm -> b o i j Hb Hob Hi.
      unfold product. cbn [map]. rewrite (typed_ncols _ _ _ _ _ Hx), (typed_ncols _ _ _ _ _ Hy), (typed_ncols _ _ _ _ _ Hz).
      rewrite (chain_absorb K), !chain_cons. apply mmul_ext; [|reflexivity]. intros k Hk.
      destruct (oplus o1 o2) as [O|] eqn:Eo.
      - destruct Ho as [Ho|Ho]; [discriminate|]. subst out. apply Hm; assumption.
      - assert (o1 = None /\ o2 = None) as [-> ->] by (destruct o1; [discriminate|]; destruct o2; [discriminate|auto]).
        rewrite (meaning_none z _ _ _ b o Hz), (meaning_none x _ _ _ b o Hx), (meaning_none y _ _ _ b o Hy).
        apply Hm; try assumption. cbn. lia. }
    induction pre as [|a pre IH]; intros r c out H.
    - cbn [app] in *. inversion H as [|? ? ? m ? ? Hx H2|? ? ? m ? O Hx H2]; subst.
      + inversion H2 as [|? ? ? c' ? ? Hy H3|? ? ? c' ? O Hy H3]; subst.
        * exists r, m, c', None, None. split; [exact Hx|]. split; [exact Hy|]. split; [auto|]. split; [auto|].
          intros z Hz Hm. split; [econstructor; eassumption|].
          apply (Base r m c' r None None out z); auto.
        * exists r, m, c', None, (Some O). split; [exact Hx|]. split; [exact Hy|]. split; [auto|]. split; [auto|].
          intros z Hz Hm. split; [eapply CT_out; eassumption|].
          apply (Base r m c' r None (Some O) (Some O) z); auto.
      + inversion H2 as [|? ? ? c' ? ? Hy H3|? ? ? c' ? O' Hy H3]; subst.
        exists r, m, c', (Some O), None. split; [exact Hx|]. split; [exact Hy|]. split; [auto|]. split; [auto|].
        intros z Hz Hm. split; [eapply CT_out; eassumption|].
        apply (Base r m c' r (Some O) None (Some O) z); auto.
    - cbn [app] in *. inversion H as [|? ? ? m ? ? Ha H2|? ? ? m ? O Ha H2]; subst.
      + destruct (IH _ _ _ H2) as (r' & m' & c' & o1 & o2 & Hx & Hy & Ho & Ho' & Hz).
        exists r', m', c', o1, o2. split; [exact Hx|]. split; [exact Hy|]. split; [exact Ho|]. split; [exact Ho'|].
        intros z Hz1 Hz2. destruct (Hz z Hz1 Hz2) as [Hc Hp]. split; [econstructor; eassumption|].
        intros b o i j Hb Hob Hi. rewrite !product_cons. apply mmul_ext; [reflexivity|]. intros k Hk.
        apply Hp; try assumption. rewrite (typed_ncols _ _ _ _ _ Ha) in Hk. exact Hk.
      + destruct (IH _ _ _ H2) as (r' & m' & c' & o1 & o2 & Hx & Hy & Ho & Ho' & Hz).
        exists r', m', c', o1, o2. split; [exact Hx|]. split; [exact Hy|]. split; [exact Ho|].
        split; [destruct Ho' as [E|E]; left; exact E|].
        intros z Hz1 Hz2. destruct (Hz z Hz1 Hz2) as [Hc Hp]. split; [eapply CT_out; eassumption|].
        intros b o i j Hb Hob Hi. rewrite !product_cons. apply mmul_ext; [reflexivity|]. intros k Hk.
        rewrite (product_none _ _ _ _ b o Hc), (product_none _ _ _ _ b o H2).
        apply Hp; try assumption; [cbn; lia|]. rewrite (typed_ncols _ _ _ _ _ Ha) in Hk. exact Hk.
  Qed.

  (** *** kinds of contractables, by bond string *)
  Definition is_mid (a : at_) : Prop := a_bond a = "blr"%string \/ a_bond a = "bslr"%string \/ a_bond a = "bolr"%string.
  Definition is_right (a : at_) : Prop := a_bond a = "bl"%string \/ a_bond a = "blo"%string \/ a_bond a = "bol"%string.

  (** a middle element times the right end: a new right end, or the unsupported product *)
  Lemma step_right x y B r m c o1 o2 : typed x B r m o1 -> typed y B m c o2 -> is_mid x -> is_right y ->
    (o1 = None \/ o2 = None) ->
    (exists zb, prod_ok K x y B r m c (oplus o1 o2) zb /\ (zb = "bl" \/ zb = "bol")%string) \/
    (o1 = None /\ o2 <> None /\ forall g, mul K (Atom x) (Atom y) g = (Err TypeError, g)).
  Proof.
    intros Hx Hy Mx My Ho. unfold is_mid, is_right in *.
    inversion Hx; subst; cbn [a_bond] in Mx; try (exfalso; destruct Mx as [E|[E|E]]; discriminate E);
    inversion Hy; subst; cbn [a_bond] in My; try (exfalso; destruct My as [E|[E|E]]; discriminate E); cbn [oplus];
      try (exfalso; destruct Ho as [E|E]; discriminate E).
    - left. eexists. split; [apply mul_mat_right; eassumption|auto].
    - left. eexists. split; [apply mul_mat_outmat; eassumption|auto].
    - left. eexists. split; [apply mul_mat_outvec; eassumption|auto].
    - left. eexists. split; [eapply mul_region_right; eassumption|auto].
    - right. split; [reflexivity|]. split; [discriminate|]. intros g. apply mul_region_outmat.
    - right. split; [reflexivity|]. split; [discriminate|]. intros g. apply mul_region_outvec.
    - left. eexists. split; [apply mul_core_right; eassumption|auto].
  Qed.
  Lemma step_left x y B r m c : typed x B r m None -> typed y B m c None -> a_bond x = "br"%string -> is_mid y ->
    prod_ok K x y B r m c None "br".
  Proof.
    intros Hx Hy Mx My. unfold is_mid in *.
    inversion Hx; subst; cbn [a_bond] in Mx; try discriminate Mx;
    inversion Hy; subst; cbn [a_bond] in My; try (exfalso; destruct My as [E|[E|E]]; discriminate E).
    - apply mul_left_mat; assumption.
    - eapply mul_left_region; eassumption.
  Qed.
  Lemma step_ends x y B r m c o2 : typed x B r m None -> typed y B m c o2 -> a_bond x = "br"%string -> is_right y ->
    prod_ok K x y B r m c o2 (match o2 with Some _ => "bo" | None => "b" end)%string.
  Proof.
    intros Hx Hy Mx My. unfold is_right in *.
    inversion Hx; subst; cbn [a_bond] in Mx; try discriminate Mx;
    inversion Hy; subst; cbn [a_bond] in My; try (exfalso; destruct My as [E|[E|E]]; discriminate E).
    - apply mul_left_right; assumption.
    - apply mul_left_outmat; assumption.
    - apply mul_left_outvec; assumption.
  Qed.

  (** *** the loop *)
  Lemma mul_last_app l x y g : mul_last K (l ++ [x; y]) g = mbind (mul K x y) (fun z => ret (l ++ [z])) g.
  Proof. unfold mul_last. rewrite rev_app_distr. cbn [rev app]. rewrite rev_involutive. reflexivity. Qed.
  Lemma reduce_loop_step fuel x y l g : reduce_loop K (S fuel) (x :: y :: l) g =
    mbind (try_type (mul_last K (x :: y :: l)) (mul_first K (x :: y :: l))) (reduce_loop K fuel) g.
  Proof. reflexivity. Qed.
  Lemma two_elems {A} (l : list A) : 2 <= List.length l -> exists x y r, l = x :: y :: r.
  Proof. destruct l as [|x [|y r]]; cbn; intros; try lia. eauto. Qed.

  Definition reduced (l : list at_) (B r c : nat) (out : option nat) (zb : string) (m : M (contr K)) : Prop :=
    forall g, exists z, m g = (Ok (Atom z), Some B) /\ typed z B r c out /\ a_bond z = zb /\
      forall b o i j, b < B -> o < osize out -> i < r -> j < c -> meaning z b o i j = product l b o i j.

  Lemma product_one a b o i j : j < ncols a -> product (S := K) [a] b o i j = meaning a b o i j.
  Proof. intros Hj. unfold product. cbn [map]. apply chain_single. exact Hj. Qed.
  Lemma chain_left_none B L l r c out : chain_typed (S := K) B r (L :: l) c out -> a_bond L = "br"%string ->
    exists m, typed L B r m None /\ chain_typed B m l c out.
  Proof.
    intros H HL. inversion H as [|? ? ? m ? ? Ha H2|? ? ? m ? O Ha H2]; subst; [eauto|].
    inversion Ha; subst; discriminate HL.
  Qed.

  Lemma loop_open B out : forall n L mid R fuel, List.length mid = n -> n < fuel ->
    a_bond L = "br"%string -> Forall is_mid mid -> is_right R ->
    chain_typed B 1 (L :: mid ++ [R]) 1 out ->
    reduced (L :: mid ++ [R]) B 1 1 out (match out with Some _ => "bo" | None => "b" end)%string
      (reduce_loop K fuel (map Atom (L :: mid ++ [R]))).
  Proof.
    induction n as [|n IH]; intros L mid R fuel Hn Hf HL Hm HR Hc g.
    - destruct mid; [|discriminate]. cbn [app] in *. destruct fuel as [|fuel]; [lia|].
      destruct (chain_split B L R [] [] _ _ _ Hc) as (r' & m & c' & o1 & o2 & Tx & Ty & Ho & Ho' & Hz).
      assert (r' = 1 /\ o1 = None) as [-> ->].
      { inversion Tx; subst; try discriminate HL; auto. }
      assert (c' = 1) as ->. { unfold is_right in HR. inversion Ty; subst; cbn [a_bond] in HR; auto; exfalso; destruct HR as [E|[E|E]]; discriminate E. }
      cbn [oplus] in *. pose proof (step_ends L R B 1 m 1 o2 Tx Ty HL HR) as HP.
      destruct (HP g) as (z & Ez & Tz & Bz & Mz).
      destruct (Hz z Tz Mz) as [Hcz Hpz]. cbn [app] in Hcz, Hpz.
      assert (out = o2) as ->.
      { destruct (chain_left_none _ _ _ _ _ _ Hc HL) as (m0 & _ & H2).
        inversion H2 as [|? ? ? m1 ? ? Ha H3|? ? ? m1 ? O Ha H3]; subst; inversion H3; subst.
        - inversion Ha; subst; inversion Ty; subst; try reflexivity; congruence.
        - inversion Ha; subst; inversion Ty; subst; try reflexivity; try congruence. }
      exists z. split; [|split; [exact Tz|split; [exact Bz|]]].
      + cbn [map]. rewrite reduce_loop_step. change [Atom L; Atom R] with ([] ++ [Atom L; Atom R]).
        unfold mbind, try_type. rewrite mul_last_app. unfold mbind. rewrite Ez. cbn [ret app]. destruct fuel; reflexivity.
      + intros b o i j Hb Hob Hi Hj. rewrite <- (Hpz b o i j Hb Hob Hi). symmetry. apply product_one.
        rewrite (typed_ncols _ _ _ _ _ Tz). exact Hj.
    - destruct fuel as [|fuel]; [lia|].
      destruct (exists_last (l := mid)) as (mid0 & x & ->); [intros ->; discriminate|].
      rewrite app_length in Hn. cbn [List.length] in Hn.
      apply Forall_app in Hm as [Hm0 Hmx]. apply Forall_inv in Hmx.
      assert (Hc' := Hc). rewrite <- app_assoc in Hc'. cbn [app] in Hc'.
      destruct (chain_split B x R [] (L :: mid0) _ _ _ Hc') as (r' & m & c' & o1 & o2 & Tx & Ty & Ho & Ho' & Hz).
      assert (EL : map Atom (L :: (mid0 ++ [x]) ++ [R]) = map Atom (L :: mid0) ++ [Atom x; Atom R]).
      { cbn [map app]. rewrite !map_app. cbn [map]. rewrite <- app_assoc. reflexivity. }
      assert (Eloop : reduce_loop K (S fuel) (map Atom (L :: (mid0 ++ [x]) ++ [R])) g =
         mbind (try_type (mul_last K (map Atom (L :: mid0) ++ [Atom x; Atom R])) (mul_first K (map Atom (L :: mid0) ++ [Atom x; Atom R]))) (reduce_loop K fuel) g).
      { rewrite EL. destruct (two_elems (map Atom (L :: mid0) ++ [Atom x; Atom R])) as (u & v & w & E); [rewrite app_length; cbn; lia|].
        rewrite E. apply reduce_loop_step. }
      destruct (step_right x R B r' m c' o1 o2 Tx Ty Hmx HR Ho) as [(zb & HP & Hzb)|(-> & Ho2 & HE)].
      + destruct (HP g) as (z & Ez & Tz & Bz & Mz). destruct (Hz z Tz Mz) as [Hcz Hpz].
        destruct (IH L mid0 z fuel) with (g := Some B) as (w & Ew & Tw & Bw & Mw); try assumption; try lia.
        { unfold is_right. rewrite Bz. tauto. }
        exists w. split; [|split; [exact Tw|split; [exact Bw|]]].
        * rewrite Eloop. unfold mbind at 1, try_type. rewrite mul_last_app. unfold mbind. rewrite Ez. cbn [ret].
          change [Atom z] with (map Atom [z]). rewrite <- map_app. exact Ew.
        * intros b o i j Hb Hob Hi Hj. rewrite (Mw b o i j Hb Hob Hi Hj).
          rewrite <- app_assoc. cbn [app]. apply (Hpz b o i j Hb Hob Hi).
      + (* unsupported: multiply at the left end *)
        destruct (mid0 ++ [x]) as [|y mid1] eqn:Em; [destruct mid0; discriminate|].
        cbn [app] in Hc.
        destruct (chain_split B L y (mid1 ++ [R]) [] _ _ _ Hc) as (r2 & m2 & c2 & p1 & p2 & TL & Ty2 & Hp & Hp' & Hz2).
        assert (p1 = None) as -> by (inversion TL; subst; try discriminate HL; reflexivity).
        assert (r2 = 1) as -> by (inversion TL; subst; try discriminate HL; reflexivity).
        assert (My : is_mid y). { assert (Hall : Forall is_mid (y :: mid1)) by (rewrite <- Em; apply Forall_app; split; [exact Hm0|constructor; [exact Hmx|constructor]]). apply (Forall_inv Hall). }
        assert (Hm1 : Forall is_mid mid1). { assert (Hall : Forall is_mid (y :: mid1)) by (rewrite <- Em; apply Forall_app; split; [exact Hm0|constructor; [exact Hmx|constructor]]). apply (Forall_inv_tail Hall). }
        assert (p2 = None) as ->.
        { destruct p2 as [O|]; [exfalso|reflexivity].
          (* two outputs: y and R *)
          assert (N : forall l r c, chain_typed (S := K) B r (l ++ [R]) c None -> False).
          { induction l as [|a l IHl]; intros r0 c0 H0; cbn [app] in H0; inversion H0 as [|? ? ? m3 ? ? Ha H3|]; subst.
            - apply Ho2. inversion Ha; subst; inversion Ty; subst; congruence.
            - eapply IHl. eassumption. }
          destruct (chain_left_none _ _ _ _ _ _ Hc HL) as (m3 & TL3 & H3).
          inversion H3 as [|? ? ? m4 ? ? Ha H4|? ? ? m4 ? O' Ha H4]; subst.
          - inversion Ha; subst; inversion Ty2; subst; congruence.
          - eapply N. eassumption. }
        pose proof (step_left L y B 1 m2 c2 TL Ty2 HL My) as HP.
        destruct (HP g) as (z & Ez & Tz & Bz & Mz). destruct (Hz2 z Tz Mz) as [Hcz Hpz]. cbn [app] in Hcz, Hpz.
        assert (Hl1 : List.length mid1 = n).
        { apply (f_equal (@List.length _)) in Em. rewrite app_length in Em. cbn [List.length] in Em. lia. }
        destruct (IH z mid1 R fuel) with (g := Some B) as (w & Ew & Tw & Bw & Mw); try assumption; try lia.
        exists w. split; [|split; [exact Tw|split; [exact Bw|]]].
        * rewrite Eloop. unfold mbind at 1, try_type. rewrite mul_last_app. unfold mbind at 1. rewrite HE.
          rewrite <- EL. cbn [app map mul_first]. unfold mbind. rewrite Ez. exact Ew.
        * intros b o i j Hb Hob Hi Hj. rewrite (Mw b o i j Hb Hob Hi Hj). cbn [app]. apply (Hpz b o i j Hb Hob Hi).
  Qed.

  (** *** parallel_eval=True reduces every region first *)
  Definition red_item := fun c : contr K => reduce K false c.
  Fixpoint red_all (l : list (contr K)) : M (list (contr K)) :=
    match l with
    | [] => ret []
    | x :: l' => let! y := reduce K false x in let! ys := red_all l' in ret (y :: ys)
    end.
  Lemma reduce_par l g : reduce K true (CList l) g = mbind (red_all l) (fun l' => reduce_loop K (List.length l') l') g.
  Proof. reflexivity. Qed.
  Lemma reduce_ser l g : reduce K false (CList l) g = reduce_loop K (List.length l) l g.
  Proof. reflexivity. Qed.

  Definition noregion (a : at_) : Prop := a_bond a <> "bslr"%string.
  (** same bond string, except that regions become single matrices *)
  Definition after (a a' : at_) : Prop := a_bond a' = (if String.eqb (a_bond a) "bslr" then "blr" else a_bond a)%string.
  Lemma red_item_ok a B r c out g : typed a B r c out ->
    exists z g', reduce K false (Atom a) g = (Ok (Atom z), g') /\ typed z B r c out /\ after a z /\
      forall b o i j, b < B -> o < osize out -> i < r -> j < c -> meaning z b o i j = meaning a b o i j.
  Proof.
    intros H. inversion H as [? ? ? E|? ? ? E|? ? ? ? E|? ? n ? E Hn|? ? ? ? ? E|? ? ? ? E|? ? ? ? E|? ? ? E|? ? E]; subst;
      try (eexists; exists g; split; [reflexivity|]; split; [exact H|]; split; [reflexivity|]; intros; reflexivity).
    destruct (region_reduce_ok K t B n c g E Hn) as (z & Ez & Tz & Cz & Mz).
    exists z, (Some B). split; [cbn [reduce a_cls]; unfold mbind; rewrite Ez; reflexivity|].
    split; [exact Tz|]. split; [|intros; apply Mz; assumption].
    inversion Tz; subst; cbn [a_cls] in Cz; try discriminate Cz. reflexivity.
  Qed.
  Lemma red_all_ok B r l c out : chain_typed (S := K) B r l c out -> forall g,
    exists l' g', red_all (map Atom l) g = (Ok (map Atom l'), g') /\ chain_typed B r l' c out /\ Forall2 after l l' /\
      forall b o i j, b < B -> o < osize out -> i < r -> product l' b o i j = product l b o i j.
  Proof.
    intros H. induction H as [r|a l r m c out Ha H IH|a l r m c O Ha H IH]; intros g.
    - exists [], g. split; [reflexivity|]. split; [constructor|]. split; [constructor|]. reflexivity.
    - destruct (red_item_ok a B r m None g Ha) as (z & g1 & Ez & Tz & Az & Mz).
      destruct (IH g1) as (l' & g2 & El & Cl & Al & Pl).
      exists (z :: l'), g2. split; [cbn [map red_all]; unfold mbind; rewrite Ez, El; reflexivity|].
      split; [econstructor; eassumption|]. split; [constructor; assumption|].
      intros b o i j Hb Ho Hi. rewrite !product_cons, (typed_ncols _ _ _ _ _ Tz), (typed_ncols _ _ _ _ _ Ha).
      apply mmul_ext; intros k Hk; [|apply Pl; assumption].
      rewrite (meaning_none z _ _ _ b o Tz), (meaning_none a _ _ _ b o Ha). apply Mz; try assumption. cbn; lia.
    - destruct (red_item_ok a B r m (Some O) g Ha) as (z & g1 & Ez & Tz & Az & Mz).
      destruct (IH g1) as (l' & g2 & El & Cl & Al & Pl).
      exists (z :: l'), g2. split; [cbn [map red_all]; unfold mbind; rewrite Ez, El; reflexivity|].
      split; [eapply CT_out; eassumption|]. split; [constructor; assumption|].
      intros b o i j Hb Ho Hi. rewrite !product_cons, (typed_ncols _ _ _ _ _ Tz), (typed_ncols _ _ _ _ _ Ha).
      apply mmul_ext; intros k Hk; [apply Mz; assumption|].
      rewrite (product_none _ _ _ _ b o Cl), (product_none _ _ _ _ b o H). apply Pl; try assumption. cbn; lia.
  Qed.
  Lemma after_mid a a' : after a a' -> is_mid a -> is_mid a' /\ noregion a'.
  Proof. unfold after, is_mid, noregion. intros -> [H|[H|H]]; rewrite H; cbn; split; auto; discriminate. Qed.
  Lemma after_left a a' : after a a' -> a_bond a = "br"%string -> a_bond a' = "br"%string.
  Proof. unfold after. intros -> ->. reflexivity. Qed.
  Lemma after_right a a' : after a a' -> is_right a -> is_right a'.
  Proof. unfold after, is_right. intros -> [H|[H|H]]; rewrite H; cbn; auto. Qed.

  (** both evaluation orders, open chain *)
  Theorem reduce_open par B out L mid R :
    a_bond L = "br"%string -> Forall is_mid mid -> is_right R ->
    chain_typed B 1 (L :: mid ++ [R]) 1 out ->
    reduced (L :: mid ++ [R]) B 1 1 out (match out with Some _ => "bo" | None => "b" end)%string
      (reduce K par (CList (map Atom (L :: mid ++ [R])))).
  Proof.
    intros HL Hm HR Hc. destruct par.
    - intros g. destruct (red_all_ok _ _ _ _ _ Hc g) as (l' & g' & El & Cl & Al & Pl).
      assert (exists L' mid' R', l' = L' :: mid' ++ [R'] /\ a_bond L' = "br"%string /\ Forall is_mid mid' /\ is_right R' ) as (L' & mid' & R' & -> & HL' & Hm' & HR').
      { inversion Al as [|? L' ? rest A1 A2]; subst. apply Forall2_app_inv_l in A2 as (mid' & rr & Am & Ar & ->).
        inversion Ar as [|? R' ? ? AR An]; subst. inversion An; subst.
        exists L', mid', R'. split; [reflexivity|]. split; [eapply after_left; eassumption|].
        split; [|eapply after_right; eassumption].
        clear -Am Hm. induction Am; [constructor|]. apply Forall_inv in Hm as Hx. apply Forall_inv_tail in Hm. constructor; [eapply after_mid; eassumption|auto]. }
      destruct (loop_open B out (List.length mid') L' mid' R' (List.length (map Atom (L' :: mid' ++ [R']))) eq_refl) with (g := g') as (z & Ez & Tz & Bz & Mz); try assumption.
      { rewrite map_length. cbn [List.length]. rewrite app_length. cbn. lia. }
      exists z. split; [rewrite reduce_par; unfold mbind; rewrite El; exact Ez|]. split; [exact Tz|]. split; [exact Bz|].
      intros b o i j Hb Ho Hi Hj. rewrite (Mz b o i j Hb Ho Hi Hj). apply Pl; assumption.
    - intros g. rewrite reduce_ser.
      apply (loop_open B out (List.length mid)); try assumption; [reflexivity|].
      rewrite map_length. cbn [List.length]. rewrite app_length. cbn. lia.
  Qed.

  (** *** chains without end vectors (periodic boundary): matrices and one output core *)
  Lemma step_mid x y B r m c o1 o2 : typed x B r m o1 -> typed y B m c o2 -> is_mid x -> is_mid y -> noregion x -> noregion y ->
    (o1 = None \/ o2 = None) ->
    prod_ok K x y B r m c (oplus o1 o2) (match oplus o1 o2 with Some _ => "bolr" | None => "blr" end)%string.
  Proof.
    intros Hx Hy Mx My Nx Ny Ho. unfold is_mid, noregion in *.
    inversion Hx; subst; cbn [a_bond] in Mx; try (exfalso; destruct Mx as [E|[E|E]]; discriminate E);
    inversion Hy; subst; cbn [a_bond] in My; try (exfalso; destruct My as [E|[E|E]]; discriminate E); cbn [oplus];
      try (exfalso; destruct Ho as [E|E]; discriminate E); try (exfalso; apply Nx; reflexivity); try (exfalso; apply Ny; reflexivity).
    - apply mul_mat_mat; assumption.
    - apply mul_mat_core; assumption.
    - apply mul_core_mat; assumption.
  Qed.
  Lemma loop_mids B r c out : forall n l fuel, List.length l = S n -> n < fuel ->
    Forall is_mid l -> Forall noregion l -> chain_typed B r l c out ->
    forall g, (n = 0 -> g = Some B) -> exists z, reduce_loop K fuel (map Atom l) g = (Ok (Atom z), Some B) /\ typed z B r c out /\
      a_bond z = (match out with Some _ => "bolr" | None => "blr" end)%string /\
      forall b o i j, b < B -> o < osize out -> i < r -> j < c -> meaning z b o i j = product l b o i j.
  Proof.
    induction n as [|n IH]; intros l fuel Hn Hf Hm Hr Hc g Hg.
    - destruct l as [|a [|]]; try discriminate. destruct fuel as [|fuel]; [lia|].
      apply Forall_inv in Hm. apply Forall_inv in Hr.
      assert (Ta : typed a B r c out). { inversion Hc as [|? ? ? m ? ? Ha H2|? ? ? m ? O Ha H2]; subst; inversion H2; subst; exact Ha. }
      exists a. split; [rewrite (Hg eq_refl); reflexivity|]. split; [exact Ta|]. split.
      + unfold is_mid, noregion in *. inversion Ta; subst; cbn [a_bond] in *; try reflexivity; exfalso; (destruct Hm as [E|[E|E]]; discriminate E) || (apply Hr; reflexivity).
      + intros b o i j Hb Ho Hi Hj. symmetry. apply product_one. rewrite (typed_ncols _ _ _ _ _ Ta). exact Hj.
    - destruct fuel as [|fuel]; [lia|].
      destruct (exists_last (l := l)) as (l1 & y & ->); [intros ->; discriminate|].
      rewrite app_length in Hn. cbn [List.length] in Hn.
      destruct (exists_last (l := l1)) as (l0 & x & ->); [intros ->; cbn in Hn; lia|].
      rewrite app_length in Hn. cbn [List.length] in Hn.
      rewrite <- app_assoc in *. cbn [app] in *.
      apply Forall_app in Hm as [Hm0 Hmx]. apply Forall_inv in Hmx as Mx. apply Forall_inv_tail in Hmx. apply Forall_inv in Hmx as My.
      apply Forall_app in Hr as [Hr0 Hrx]. apply Forall_inv in Hrx as Nx. apply Forall_inv_tail in Hrx. apply Forall_inv in Hrx as Ny.
      destruct (chain_split B x y [] l0 _ _ _ Hc) as (r' & m & c' & o1 & o2 & Tx & Ty & Ho & Ho' & Hz).
      pose proof (step_mid x y B r' m c' o1 o2 Tx Ty Mx My Nx Ny Ho) as HP.
      destruct (HP g) as (z & Ez & Tz & Bz & Mz). destruct (Hz z Tz Mz) as [Hcz Hpz].
      destruct (IH (l0 ++ [z]) fuel) with (g := Some B) as (w & Ew & Tw & Bw & Mw); try assumption; try lia.
      { rewrite app_length. cbn. lia. }
      { apply Forall_app. split; [exact Hm0|]. constructor; [|constructor]. unfold is_mid. rewrite Bz. destruct (oplus o1 o2); auto. }
      { apply Forall_app. split; [exact Hr0|]. constructor; [|constructor]. unfold noregion. rewrite Bz. destruct (oplus o1 o2); discriminate. }
      { reflexivity. }
      exists w. split; [|split; [exact Tw|split; [exact Bw|]]].
      + rewrite map_app. cbn [map].
        destruct (two_elems (map Atom l0 ++ [Atom x; Atom y])) as (u & v & t & E); [rewrite app_length; cbn; lia|].
        rewrite E, reduce_loop_step, <- E. unfold mbind, try_type. rewrite mul_last_app. unfold mbind. rewrite Ez. cbn [ret].
        change [Atom z] with (map Atom [z]). rewrite <- map_app. exact Ew.
      + intros b o i j Hb Hob Hi Hj. rewrite (Mw b o i j Hb Hob Hi Hj). apply (Hpz b o i j Hb Hob Hi).
  Qed.
  Theorem reduce_mids B r c out l : 2 <= List.length l -> Forall is_mid l -> chain_typed B r l c out ->
    reduced l B r c out (match out with Some _ => "bolr" | None => "blr" end)%string (reduce K true (CList (map Atom l))).
  Proof.
    intros Hl Hm Hc g. destruct (red_all_ok _ _ _ _ _ Hc g) as (l' & g' & El & Cl & Al & Pl).
    assert (Forall is_mid l' /\ Forall noregion l') as [Hm' Hr'].
    { clear -Al Hm. induction Al; [split; constructor|]. apply Forall_inv in Hm as Hx. apply Forall_inv_tail in Hm.
      destruct (IHAl Hm). destruct (after_mid _ _ H Hx). split; constructor; assumption. }
    assert (Hl' : List.length l' = List.length l) by (clear -Al; induction Al; cbn; congruence).
    destruct (loop_mids B r c out (List.length l' - 1) l' (List.length (map Atom l'))) with (g := g') as (z & Ez & Tz & Bz & Mz); try assumption.
    { lia. } { rewrite map_length. lia. } { lia. }
    exists z. split; [rewrite reduce_par; unfold mbind; rewrite El; exact Ez|]. split; [exact Tz|]. split; [exact Bz|].
    intros b o i j Hb Ho Hi Hj. rewrite (Mz b o i j Hb Ho Hi Hj). apply Pl; assumption.
  Qed.
End P.
