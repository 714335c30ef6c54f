(** C54, C55, C63: the code printer. *)
From Coq Require Import List Bool Arith Ascii String Lia Reals Lra.
From Coquelicot Require Import Coquelicot.
From Verif Require Import Base ModelPrinter ModelEgrad SpecEgrad SpecPrinter ProofEgrad PropEgrad ProofPrinter.
Import ListNotations.
Local Open Scope nat_scope.
Local Open Scope list_scope.

(** ** C54 *)
(** Something is always printed. *)
Theorem C54_total_partial d : proper d -> exists t, print_Derivative d = Some t.
Proof. intros [_ [_ [_ [_ Hv]]]]. destruct (positions _ _ Hv) as [pos [E _]]. eexists. apply (print_text d pos E). Qed.
(** Of total order one: a call of egrad at the right position, but on the one variable only. *)
Theorem C54_first_order_partial d x i : proper d -> d_vars d = [(x, 1)] -> position x (d_args d) i ->
  exists t, print_Derivative d = Some t /\ parse t = Some (PCall (egrad_of (PName (d_name d)) i) [PName x]).
Proof.
  intros [Hg [Ha [_ [_ Hv]]]] E Hp. destruct (positions _ _ Hv) as [pos [Em HF]]. rewrite (print_text d pos Em). rewrite E in *.
  inversion HF as [|? [i' n] ? pos' [Hp' En] HF']; subst. inversion HF'; subst. cbn [fst snd] in *. subst n.
  rewrite <- (position_unique x (d_args d) i i' Hp Hp'). eexists. split; [reflexivity|].
  cbn [flat flat_map fst snd repeat app map List.concat List.length]. rewrite !app_nil_r.
  apply parse_one; [exact Hg|]. apply Ha. apply (Hv x 1). left. reflexivity.
Qed.
(** Of total order two or more: no code at all. *)
Theorem C54_higher_order_refuted d : proper d -> 2 <= list_sum (map snd (d_vars d)) ->
  exists t, print_Derivative d = Some t /\ parse t = None.
Proof.
  intros [Hg [Ha [_ [_ Hv]]]] H2. destruct (positions _ _ Hv) as [pos [Em HF]]. rewrite (print_text d pos Em).
  eexists. split; [reflexivity|]. rewrite <- (flat_len _ _ _ HF) in H2. destruct (flat pos) as [|i [|j l]]; cbn in H2; [lia..|].
  cbn [map List.concat]. rewrite <- !app_assoc. unfold parse. rewrite lex_two by exact Hg. reflexivity.
Qed.
(** So the printed code is that of the derivative just for first derivatives of functions of one variable. *)
Theorem C54_exactly_partial d e : proper d -> derivative_code (d_args d) (PName (d_name d)) (d_vars d) e ->
  exists t, print_Derivative d = Some t /\
    (parse t = Some e <-> exists x, d_args d = [x] /\ d_vars d = [(x, 1)]).
Proof.
  intros Hd He. destruct (le_lt_dec 2 (list_sum (map snd (d_vars d)))) as [H2|H2].
  - destruct (C54_higher_order_refuted d Hd H2) as [t [E1 E2]]. exists t. split; [exact E1|]. rewrite E2. split; [discriminate|].
    intros [x [_ Ex]]. rewrite Ex in H2. cbn in H2. lia.
  - pose proof Hd as [Hg [Ha [_ [Hne Hv]]]].
    assert (list_sum (map snd (d_vars d)) = 1) as H1.
    { destruct (d_vars d) as [|[x n] vs]; [congruence|]. destruct (Hv x n (or_introl eq_refl)) as [_ Hn]. cbn in *. lia. }
    destruct (one_var (d_vars d) (fun x => In x (d_args d)) Hne Hv H1) as [x [Ex Hx]].
    destruct (index_position x (d_args d) Hx) as [i [_ Hp]].
    destruct (C54_first_order_partial d x i Hd Ex Hp) as [t [E1 E2]]. exists t. split; [exact E1|]. rewrite E2.
    rewrite Ex in He. inversion He as [| |? ? i' ? ? ? Hp' He']; subst. inversion He' as [|? ? ? ? He''|]; subst. inversion He''; subst.
    rewrite <- (position_unique x (d_args d) i i' Hp Hp'). split.
    + intros H. injection H as H. exists x. split; [|exact Ex]. destruct (d_args d) as [|y [|z l]]; try discriminate. cbn in H. congruence.
    + intros [y [Ey Ey']]. rewrite Ex in Ey'. injection Ey' as <-. rewrite Ey. reflexivity.
Qed.
(** In that case running the code gives the derivative, entry by entry. *)
Theorem C54_value_partial F V g x f f' sh : ident g = true -> ident x = true ->
  elementwise 1 f (F g) -> conform 1 sh [V x] -> partial 1 f 0 f' ->
  exists t, print_Derivative (Deriv g [x] [(x, 1)]) = Some t /\
    forall r, computes F V t r <-> r = Some (Arr sh (map (fun i => f' [entry i (V x)]) (seq 0 (numel sh)))).
Proof.
  intros Hg Hx Hf Hc Hp. assert (position x [x] 0) as Hq by (split; [reflexivity|intros j Hj; lia]).
  destruct (C54_first_order_partial (Deriv g [x] [(x, 1)]) x 0) as [t [E1 E2]]; [|reflexivity|exact Hq|].
  { repeat split; cbn [d_name d_args d_vars].
    - exact Hg.
    - intros a [<-|[]]. exact Hx.
    - constructor; [intros []|constructor].
    - discriminate.
    - destruct H as [E|[]]. injection E as <- <-. left. reflexivity.
    - destruct H as [E|[]]. injection E as <- <-. lia. }
  exists t. split; [exact E1|]. intros r. cbn [d_name] in E2.
  assert (is_egrad (F g) 0 [V x] r <-> r = Some (Arr sh (map (fun i => f' [entry i (V x)]) (seq 0 (numel sh))))) as Hiff.
  { apply (C53_partial_derivatives 1 f (F g) 0 f' sh [V x]); [exact Hf|lia|exact Hc|]. intros i Hi. apply Hp. reflexivity. }
  rewrite <- Hiff. unfold computes. split.
  - intros [h [xs [G [E [Hh HG]]]]]. rewrite E2 in E. injection E as <- Ex.
    destruct xs as [|y [|z l]]; try discriminate. cbn in Ex. injection Ex as <-.
    inversion Hh as [|g' j]; subst. match goal with E : dec _ = dec _ |- _ => apply dec_inj in E end. subst j. exact HG.
  - intros H. exists (egrad_of (PName g) 0), [x], (is_egrad (F g) 0). split; [exact E2|]. split; [constructor|exact H].
Qed.
(** The three ways it goes: right, without its second argument, and not code. *)
Example C54_ex :
  print_Derivative (Deriv (txt "g") [txt "x"] [(txt "x", 1)]) = Some (txt "egrad(g,0)(x)") /\
  print_Derivative (Deriv (txt "u") [txt "x"; txt "t"] [(txt "t", 1)]) = Some (txt "egrad(u,1)(t)") /\
  print_Derivative (Deriv (txt "g") [txt "x"] [(txt "x", 2)]) = Some (txt "egrad(g,0egrad(g,0))(x)") /\
  print_Derivative (Deriv (txt "u") [txt "x"; txt "t"] [(txt "x", 1); (txt "t", 1)]) = Some (txt "egrad(u,0egrad(u,1))(xt)") /\
  parse (txt "egrad(egrad(u,0),1)(x,t)") =
    Some (PCall (egrad_of (egrad_of (PName (txt "u")) 0) 1) [PName (txt "x"); PName (txt "t")]) /\
  derivative_code [txt "x"; txt "t"] (PName (txt "u")) [(txt "x", 1); (txt "t", 1)]
    (PCall (egrad_of (egrad_of (PName (txt "u")) 0) 1) [PName (txt "x"); PName (txt "t")]).
Proof.
  repeat split; try reflexivity. apply dc_order with (i := 0); [split; [reflexivity|intros j Hj; lia]|]. apply dc_zero.
  apply dc_order with (i := 1); [split; [reflexivity|]|apply dc_zero, dc_nil]. intros [|j] Hj; [cbn; discriminate|lia].
Qed.
Example C54_value_ex : exists t, print_Derivative (Deriv (txt "g") [txt "x"] [(txt "x", 1)]) = Some t /\
  forall r, computes (fun _ args => let sh := match args with AArr a :: _ => a_sh a | _ => [] end in
                        Arr sh (map (fun i => (nth 0 (map (entry i) args) 0 * nth 0 (map (entry i) args) 0)%R) (seq 0 (numel sh))))
                     (fun _ => AArr (Arr [2] [3; 5]%R)) t r <-> r = Some (Arr [2] [6; 10]%R).
Proof.
  destruct (C54_value_partial (fun _ args => let sh := match args with AArr a :: _ => a_sh a | _ => [] end in
                        Arr sh (map (fun i => (nth 0 (map (entry i) args) 0 * nth 0 (map (entry i) args) 0)%R) (seq 0 (numel sh))))
                     (fun _ => AArr (Arr [2] [3; 5]%R)) (txt "g") (txt "x") (fun p => nth 0 p 0 * nth 0 p 0)%R (fun p => 2 * nth 0 p 0)%R [2]) as [t [E H]]; try reflexivity.
  - intros sh args [Hl [HF [x [Hx Es]]]]. destruct args as [|a [|b l]]; try discriminate. destruct Hx as [->|[]]. rewrite Es. reflexivity.
  - split; [reflexivity|]. split.
    + constructor; [|constructor]. eexists. split; [reflexivity|]. split; [reflexivity|left; reflexivity].
    + eexists. split; [left; reflexivity|reflexivity].
  - intros p Hp. destruct p as [|y [|z l]]; try discriminate. cbn. auto_derive; [exact I|ring].
  - exists t. split; [exact E|]. intros r. rewrite H. cbn. replace (2 * 3)%R with 6%R by ring. replace (2 * 5)%R with 10%R by ring. reflexivity.
Qed.

(** ** C55 *)
(** Substituting one symbol is right for every value just when the symbol's name is not part of
    a longer word of the text. *)
Theorem C55_one_partial t x : ident x = true ->
  (forall v, print_Subs t [(x, v)] = subst_words [(x, v)] t) <->
  (forall w, In w (words t) -> w = x \/ ~ occurs x w).
Proof.
  intros Hi. pose proof (ident_word x Hi) as Hx. assert (forall v, names_ok [(x, v)]) as Hn by (intros; constructor; [exact Hx|constructor]).
  split.
  - intros H w Hw. specialize (H []). rewrite Subs_words in H by apply Hn. unfold subst_words in H.
    pose (f := fun w : text => List.length (print_Subs w [(x, [])])).
    pose (g := fun w : text => List.length (match lookup w [(x, [])] with Some v => v | None => w end)).
    assert (f w = g w) as E.
    { apply (sum_eq f g (words t)); [| |exact Hw].
      - intros u _. unfold f, g. cbn. destruct (teqb u x) eqn:E.
        + apply teqb_eq in E. subst u. rewrite rep_self by apply Hx. reflexivity.
        + apply rep_nil_len, Hx.
      - apply (f_equal (@List.length ascii)) in H. clear -H. revert H. generalize (words t). intros l H.
        assert (forall h : text -> text, List.length (List.concat (map h l)) = list_sum (map (fun u => List.length (h u)) l)) as Hl.
        { intros h. clear. induction l as [|u l IH]; [reflexivity|]. cbn [map List.concat]. rewrite app_length, IH. reflexivity. }
        etransitivity; [symmetry; exact (Hl (fun w => print_Subs w [(x, [])]))|]. etransitivity; [exact H|].
        exact (Hl (fun w => match lookup w [(x, [])] with Some v => v | None => w end)). }
    unfold f, g in E. cbn in E. destruct (teqb w x) eqn:Ew; [left; apply teqb_eq, Ew|]. right. intros Ho.
    pose proof (rep_nil_occ x w (proj1 Hx) Ho) as Hle. rewrite E in Hle. destruct x; [discriminate|cbn in Hle; lia].
  - intros H v. rewrite Subs_words by apply Hn. unfold subst_words. f_equal. apply map_ext_in. intros w Hw.
    apply Subs_word; [apply Hn| | |].
    + constructor; [intros []|constructor].
    + intros s [<-|[]]. apply H, Hw.
    + constructor; constructor.
Qed.
(** Several symbols: also no value may mention a symbol that is replaced later. *)
Theorem C55_several_partial t subs : (forall x v, In (x, v) subs -> ident x = true) -> NoDup (map fst subs) ->
  (forall w x v, In w (words t) -> In (x, v) subs -> w = x \/ ~ occurs x w) ->
  ForallOrdPairs (fun p q : text * text => ~ occurs (fst q) (snd p)) subs ->
  print_Subs t subs = subst_words subs t.
Proof.
  intros Hi Hd Hw Hp. assert (names_ok subs) as Hn by (apply List.Forall_forall; intros [x v] Hs; apply ident_word, (Hi x v Hs)).
  rewrite Subs_words by exact Hn. unfold subst_words. f_equal. apply map_ext_in. intros w Hin.
  apply Subs_word; [exact Hn|exact Hd| |exact Hp]. intros [x v] Hs. apply (Hw w x v Hin Hs).
Qed.
(** In any case the text is treated word by word. *)
Theorem C55_word_by_word_partial t subs : (forall x v, In (x, v) subs -> ident x = true) ->
  print_Subs t subs = List.concat (map (fun w => print_Subs w subs) (words t)).
Proof. intros Hi. apply Subs_words. apply List.Forall_forall. intros [x v] Hs. apply ident_word, (Hi x v Hs). Qed.
(** A first derivative at a point, for names that are not part of each other or of egrad. *)
Theorem C55_derivative_partial g x v : ident g = true -> ident x = true -> ~ occurs x g -> ~ occurs x (txt "egrad") ->
  exists t, print_Derivative (Deriv g [x] [(x, 1)]) = Some t /\
    print_Subs t [(x, v)] = txt "egrad(" ++ g ++ txt ",0)(" ++ v ++ txt ")".
Proof.
  intros Hg Hx Hog Hoe. eexists. split; [unfold print_Derivative; cbn [d_vars d_args d_name mapM fst snd index_of]; rewrite teqb_refl; reflexivity|].
  pose proof (ident_word x Hx) as Hw. assert (names_ok [(x, v)]) as Hn by (constructor; [exact Hw|constructor]).
  assert (forall u, ~ occurs x u -> print_Subs u [(x, v)] = u) as Hu.
  { intros u Ho. apply Subs_none; [exact Hn|]. intros s [<-|[]]. exact Ho. }
  cbn [map repeat List.concat fst snd fold_left Nat.add]. rewrite !app_nil_r, <- !app_assoc.
  change (txt "egrad(" ++ ?r) with (txt "egrad" ++ "("%char :: r) at 1. rewrite Subs_sep by (exact Hn || reflexivity).
  rewrite Hu by exact Hoe. change (txt "," ++ ?r) with (","%char :: r) at 1. rewrite Subs_sep by (exact Hn || reflexivity).
  rewrite Hu by exact Hog. change (txt ")" ++ ?r) with (")"%char :: r) at 1. rewrite Subs_sep by (exact Hn || reflexivity).
  rewrite (Hu (dec 0)).
  - change (txt "(" ++ ?r) with ([] ++ "("%char :: r) at 1. rewrite Subs_sep by (exact Hn || reflexivity). rewrite Subs_nil by exact Hn.
    change (txt ")") with (")"%char :: []) at 1. rewrite Subs_sep by (exact Hn || reflexivity). rewrite Subs_nil by exact Hn.
    unfold print_Subs at 1. cbn [fold_left fst snd]. rewrite rep_self by apply Hw. reflexivity.
  - change (dec 0) with ["0"%char]. intros H. apply occurs_cons in H as [H|[a [b H]]].
    + destruct x as [|c x]; [discriminate|]. cbn [prefixb] in H. apply andb_true_iff in H as [H _]. apply Ascii.eqb_eq in H. subst c. discriminate.
    + symmetry in H. apply app_eq_nil in H as [_ H]. apply app_eq_nil in H as [-> _]. discriminate.
Qed.
(** Otherwise the surroundings change: names are cut up, egrad itself is, and symbols replaced
    in turn meet each other's values. *)
Theorem C55_refuted :
  print_Subs (txt "exp(x)") [(txt "x", txt "1")] = txt "e1p(1)" /\
  (exists t, print_Derivative (Deriv (txt "u") [txt "a"] [(txt "a", 1)]) = Some t /\ print_Subs t [(txt "a", txt "0")] = txt "egr0d(u,0)(0)") /\
  print_Subs (txt "f(x, y)") [(txt "x", txt "y"); (txt "y", txt "x")] = txt "f(x, x)" /\
  subst_words [(txt "x", txt "y"); (txt "y", txt "x")] (txt "f(x, y)") = txt "f(y, x)".
Proof. repeat split. eexists. split; reflexivity. Qed.
Example C55_ex :
  print_Subs (txt "g(x, y) + x*sin(y)") [(txt "x", txt "2*k"); (txt "y", txt "x")] = txt "g(2*k, x) + 2*k*sin(x)" /\
  words (txt "x1*sin(y)") = [txt "x1"; txt "*"; txt "sin"; txt "("; txt "y"; txt ")"].
Proof. split; reflexivity. Qed.

(** ** C63 *)
(** After a printer has been made no entry of the tables mentions math, whatever they held. *)
Theorem C63_no_math kf k v : In (k, v) (printer_init kf) -> ~ occurs (txt "math") v.
Proof.
  unfold printer_init. rewrite in_map_iff. intros [[k' v'] [E _]]. cbn [fst snd] in E. destruct (isin (txt "math") v') eqn:Hm.
  - injection E as <- <-. apply rep_gone; [discriminate|discriminate|]. cbn. intros c H1 H2.
    repeat destruct H1 as [<-|H1]; repeat destruct H2 as [H2|H2]; discriminate || contradiction.
  - injection E as <- <-. rewrite <- isin_iff. congruence.
Qed.
(** The names are kept, in their order, and what did not mention math is untouched; math.f becomes np.f. *)
Theorem C63_entries kf : map fst (printer_init kf) = map fst kf /\
  (forall k v, In (k, v) kf -> ~ occurs (txt "math") v -> In (k, v) (printer_init kf)) /\
  (forall k f, In (k, txt "math." ++ f) kf -> ~ occurs (txt "math") f -> In (k, txt "np." ++ f) (printer_init kf)).
Proof.
  unfold printer_init. split; [|split].
  - rewrite map_map. apply map_ext. intros [k v]. cbn. destruct (isin _ v); reflexivity.
  - intros k v H Hn. apply in_map_iff. exists (k, v). split; [|exact H]. cbn [fst snd].
    destruct (isin (txt "math") v) eqn:E; [|reflexivity]. apply isin_iff in E. contradiction.
  - intros k f H Hn. apply in_map_iff. exists (k, txt "math." ++ f). split; [|exact H]. cbn [fst snd].
    change (txt "math." ++ f) with (txt "math" ++ "."%char :: f).
    assert (isin (txt "math") (txt "math" ++ "."%char :: f) = true) as -> by (apply isin_iff; exists [], ("."%char :: f); reflexivity).
    rewrite rep_found by discriminate. rewrite rep_other by reflexivity. rewrite rep_none; [reflexivity|discriminate|exact Hn].
Qed.
(** Making more printers changes nothing further. *)
Theorem C63_once kf n : Nat.iter (S n) printer_init kf = printer_init kf.
Proof.
  assert (printer_init (printer_init kf) = printer_init kf) as E.
  { unfold printer_init at 1. rewrite <- (map_id (printer_init kf)) at 2. apply map_ext_in. intros [k v] H.
    pose proof (C63_no_math kf k v H) as Hn. cbn [fst snd]. destruct (isin (txt "math") v) eqn:E; [|reflexivity].
    apply isin_iff in E. contradiction. }
  induction n as [|n IH]; [reflexivity|]. change (printer_init (Nat.iter (S n) printer_init kf) = printer_init kf).
  rewrite IH. exact E.
Qed.
Example C63_ex : printer_init [(txt "sin", txt "math.sin"); (txt "Abs", txt "abs"); (txt "Pi", txt "math.pi")] =
  [(txt "sin", txt "np.sin"); (txt "Abs", txt "abs"); (txt "Pi", txt "np.pi")].
Proof. reflexivity. Qed.

Print Assumptions C54_total_partial. Print Assumptions C54_first_order_partial. Print Assumptions C54_higher_order_refuted.
Print Assumptions C54_exactly_partial. Print Assumptions C54_value_partial.
Print Assumptions C55_one_partial. Print Assumptions C55_several_partial. Print Assumptions C55_word_by_word_partial.
Print Assumptions C55_derivative_partial. Print Assumptions C55_refuted.
Print Assumptions C63_no_math. Print Assumptions C63_entries. Print Assumptions C63_once.
