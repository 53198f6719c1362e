(** What the comparison macros expand to, when that compiles, and what it does. *)
From Coq Require Import List Arith ZArith Lia Bool String.
From Verif Require Import Macros MacrosSpec MacrosProofs.
Import ListNotations.
Set Implicit Arguments.

Definition stream (items : list expr) : expr := fold_left gl items Stream.
Definition toks (items : list expr) : list token := TStream :: flat_map (fun e => TOp Shl :: render e) items.

Lemma stream_snoc items e : stream (items ++ [e]) = gl (stream items) e.
Proof. unfold stream. rewrite fold_left_app. reflexivity. Qed.
Lemma toks_app a b : toks (a ++ b) = toks a ++ flat_map (fun e => TOp Shl :: render e) b.
Proof. unfold toks. rewrite flat_map_app. reflexivity. Qed.
Lemma stream_render items : render (stream items) = toks items.
Proof.
  induction items as [|e items IH] using rev_ind; [reflexivity|].
  rewrite stream_snoc, gl_render, IH, toks_app. cbn. rewrite app_nil_r. reflexivity.
Qed.

Definition literal (e : expr) : Prop := match e with Str _ | Quote _ => True | _ => False end.
(** Items that keep the chain a stream. *)
Definition good (e : expr) : Prop := wf e /\ (literal e \/ (numeric e = true /\ printable e = true)).
Lemma stream_good items : Forall good items ->
  wf (stream items) /\ 8 <= level (stream items) /\ type_of (stream items) = Some Ostream.
Proof.
  induction items as [|e items IH] using rev_ind; intros F; [cbn; auto with arith|].
  apply Forall_app in F. destruct F as [F Fe]. inversion Fe as [|? ? (We & Ge) _]; subst. destruct (IH F) as (W & L & T).
  rewrite stream_snoc. split; [apply gl_wf; auto|]. destruct Ge as [Li|(N & P)].
  - destruct e; try contradiction; cbn; rewrite T; auto.
  - split; [rewrite gl_level; pose proof (printable_level _ P We); lia|apply gl_type; auto].
Qed.

Lemma numeric_no_stream e : numeric e = true -> ~ In TStream (render e).
Proof.
  induction e; cbn; intros X Y; try discriminate; try (destruct Y as [Y|Y]; [discriminate|]; auto; fail).
  - destruct Y as [Y|Y]; [discriminate|]. apply in_app_or in Y. destruct Y as [Y|[Y|Y]]; [auto|discriminate|auto].
    exact (IHe X Y).
  - destruct Y as [Y|Y]; [discriminate|]. exact (IHe X Y).
  - destruct Y as [Y|Y]; [discriminate|]. exact (IHe X Y).
  - apply andb_true_iff in X. destruct X as [X1 X2]. apply in_app_or in Y.
    destruct Y as [Y|[Y|Y]]; [exact (IHe1 X1 Y)|discriminate|exact (IHe2 X2 Y)].
Qed.
Definition plain (e : expr) : Prop := literal e \/ numeric e = true.
Lemma plain_no_stream items : Forall plain items -> ~ In TStream (flat_map (fun e => TOp Shl :: render e) items).
Proof.
  induction 1 as [|e items P F IH]; cbn; [auto|]. intros [X|X]; [discriminate|]. apply in_app_or in X. destruct X as [X|X]; auto.
  destruct P as [P|P].
  - destruct e; try contradiction; cbn in X; destruct X as [X|[]]; discriminate.
  - exact (numeric_no_stream _ P X).
Qed.

(** An operand followed by "<< literal": it has to be printable. *)
Lemma must_print t pre e s post : Forall good pre -> wf e -> numeric e = true -> Forall plain post ->
  wf t -> type_of t <> None -> render t = toks (pre ++ e :: Str s :: post) -> printable e = true.
Proof.
  intros G We Ne Po W T E.
  assert (Pre : Forall plain pre).
  { eapply Forall_impl; [|exact G]. intros x (_ & [X|(X & _)]); [left|right]; auto. }
  destruct (stream_good G) as (Wp & Lp & Tp).
  replace (pre ++ e :: Str s :: post) with ((pre ++ [e]) ++ Str s :: post) in E by (rewrite <- app_assoc; reflexivity).
  rewrite toks_app in E.
  destruct (@locate t s (flat_map (fun e => TOp Shl :: render e) (pre ++ [e])) (flat_map (fun e => TOp Shl :: render e) post) W T)
    as (u & Ru & Wu & Tu).
  - apply plain_no_stream. apply Forall_app. split; auto. constructor; [right; auto|constructor].
  - apply plain_no_stream; auto.
  - rewrite E. reflexivity.
  - change (TStream :: flat_map (fun e => TOp Shl :: render e) (pre ++ [e])) with (toks (pre ++ [e])) in Ru.
    rewrite <- stream_render, stream_snoc in Ru. apply render_inj in Ru; auto; [|apply gl_wf; auto]. subst u.
    exact (proj2 (@gl_type _ _ Tp Ne) Tu).
Qed.

Lemma lit_good items : Forall literal items -> Forall good items.
Proof. apply Forall_impl. intros e L. split; auto. destruct e; try contradiction; exact I. Qed.

(** The whole message. *)
Lemma message_iff pre e1 s1 mid e2 s2 post : Forall literal pre -> Forall literal mid -> Forall literal post ->
  wf e1 -> numeric e1 = true -> wf e2 -> numeric e2 = true ->
  let items := pre ++ e1 :: Str s1 :: mid ++ e2 :: Str s2 :: post in
  (printable e1 = true -> printable e2 = true ->
     parse (toks items) = Some (stream items) /\ type_of (stream items) = Some Ostream) /\
  (forall t, parse (toks items) = Some t -> type_of t <> None -> printable e1 = true /\ printable e2 = true).
Proof.
  intros Lp Lm Lq W1 N1 W2 N2 items.
  assert (PL : forall l, Forall literal l -> Forall plain l) by (intros l; apply Forall_impl; intros x X; left; auto).
  split.
  - intros P1 P2. assert (G : Forall good items).
    { unfold items. apply Forall_app. split; [apply lit_good; auto|]. constructor; [split; auto|].
      constructor; [split; cbn; auto|]. apply Forall_app. split; [apply lit_good; auto|]. constructor; [split; auto|].
      constructor; [split; cbn; auto|apply lit_good; auto]. }
    destruct (stream_good G) as (W & _ & T). split; auto. rewrite <- stream_render. apply parse_render. auto.
  - intros t E T. apply parse_inv in E. destruct E as (E & W). symmetry in E.
    assert (P1 : printable e1 = true).
    { eapply (@must_print t pre e1 s1); [apply lit_good; auto|auto|auto| |exact W|exact T|exact E].
      apply Forall_app. split; auto. constructor; [right; auto|]. constructor; [left; exact I|auto]. }
    split; auto.
    eapply (@must_print t (pre ++ e1 :: Str s1 :: mid) e2 s2 post); auto.
    + apply Forall_app. split; [apply lit_good; auto|]. constructor; [split; auto|]. constructor; [split; cbn; auto|apply lit_good; auto].
    + rewrite E. unfold items. rewrite <- app_assoc. reflexivity.
Qed.

(** * What is written *)
Section Out.
Variable env : nat -> Z.
Notation eval := (eval env).
Notation output := (output env).

Lemma gl_output s e w t v u : output s = Some (w, t) -> numeric e = true -> printable e = true -> eval e = Some (v, u) ->
  exists ws, output (gl s e) = Some (w ++ ws, t ++ u) /\ (9 <= level e -> ws = [WNum v]).
Proof.
  intros O. revert v u. induction e; intros v u N P E; try discriminate N;
    try (exists [WNum v]; split; [|auto]; cbn [gl Macros.output]; rewrite O, E; reflexivity).
  cbn [numeric] in N. apply andb_true_iff in N. destruct N as [N1 N2]. cbn [gl level].
  destruct (Nat.leb_spec (prec o) 8) as [Hp|Hp].
  - destruct o; cbn in Hp; try lia; cbn in P; try discriminate P. cbn [Macros.eval] in E.
    destruct (eval e1) as [[x tx]|] eqn:E1; [|discriminate]. destruct (eval e2) as [[y ty]|] eqn:E2; [|discriminate].
    destruct (IHe1 x tx N1 P eq_refl) as (ws & Ow & _). unfold apply in E. destruct (y <? 0)%Z; [discriminate|].
    injection E as <- <-. exists (ws ++ [WNum y]). split; [|cbn; lia]. cbn [Macros.output]. rewrite Ow.
    destruct e2; try discriminate N2; rewrite E2, <- !app_assoc; reflexivity.
  - exists [WNum v]. split; auto. cbn [Macros.output]. rewrite O, E. reflexivity.
Qed.

Definition lits (items : list expr) : list written :=
  flat_map (fun e => match e with Str s => [WStr s] | Quote q => [WQuote q] | _ => [] end) items.
Lemma lits_output items : forall s w t, Forall literal items -> output s = Some (w, t) ->
  output (fold_left gl items s) = Some (w ++ lits items, t).
Proof.
  induction items as [|e items IH]; intros s w t F O; cbn [fold_left lits flat_map]; [rewrite app_nil_r; auto|].
  inversion F as [|? ? L F']; subst. destruct e; try contradiction.
  - rewrite (IH (gl s (Str s0)) (w ++ [WStr s0]) t); auto; [rewrite <- app_assoc; reflexivity|]. cbn. rewrite O. reflexivity.
  - rewrite (IH (gl s (Quote ts)) (w ++ [WQuote ts]) t); auto; [rewrite <- app_assoc; reflexivity|]. cbn. rewrite O. reflexivity.
Qed.

Lemma message_output pre e1 s1 mid e2 s2 post v1 u1 v2 u2 : Forall literal pre -> Forall literal mid -> Forall literal post ->
  numeric e1 = true -> numeric e2 = true -> printable e1 = true -> printable e2 = true ->
  eval e1 = Some (v1, u1) -> eval e2 = Some (v2, u2) ->
  exists ws1 ws2, output (stream (pre ++ e1 :: Str s1 :: mid ++ e2 :: Str s2 :: post)) =
    Some (lits pre ++ ws1 ++ WStr s1 :: lits mid ++ ws2 ++ WStr s2 :: lits post, u1 ++ u2) /\
    (9 <= level e1 -> ws1 = [WNum v1]) /\ (9 <= level e2 -> ws2 = [WNum v2]).
Proof.
  intros Lp Lm Lq N1 N2 P1 P2 E1 E2. unfold stream.
  pose proof (@lits_output pre Stream [] [] Lp eq_refl) as O1. cbn [app] in O1.
  destruct (@gl_output _ e1 _ _ v1 u1 O1 N1 P1 E1) as (ws1 & O2 & K1). cbn [app] in O2.
  assert (O3 : output (fold_left gl (pre ++ e1 :: Str s1 :: mid) Stream) = Some (lits pre ++ ws1 ++ WStr s1 :: lits mid, u1)).
  { rewrite fold_left_app. change (fold_left gl (e1 :: Str s1 :: mid) (fold_left gl pre Stream)) with
      (fold_left gl (Str s1 :: mid) (gl (fold_left gl pre Stream) e1)). rewrite (@lits_output (Str s1 :: mid) _ _ _ (Forall_cons (Str s1) I Lm : Forall literal (Str s1 :: mid)) O2).
    cbn. rewrite <- app_assoc. reflexivity. }
  destruct (@gl_output _ e2 _ _ v2 u2 O3 N2 P2 E2) as (ws2 & O4 & K2).
  exists ws1, ws2. split; [|auto].
  replace (pre ++ e1 :: Str s1 :: mid ++ e2 :: Str s2 :: post) with ((pre ++ e1 :: Str s1 :: mid) ++ e2 :: Str s2 :: post)
    by (rewrite <- app_assoc; reflexivity).
  rewrite fold_left_app. change (fold_left gl (e2 :: Str s2 :: post) (fold_left gl (pre ++ e1 :: Str s1 :: mid) Stream)) with
    (fold_left gl (Str s2 :: post) (gl (fold_left gl (pre ++ e1 :: Str s1 :: mid) Stream) e2)).
  rewrite (@lits_output (Str s2 :: post) _ _ _ (Forall_cons (Str s2) I Lq : Forall literal (Str s2 :: post)) O4).
  f_equal. f_equal. repeat (rewrite <- app_assoc; cbn [app]). reflexivity.
Qed.
End Out.

(** * The expansions *)
Local Open Scope string_scope.
Local Open Scope list_scope.
Definition pre_items (h : how) (r : op) (l q : list token) (s : string) : list expr :=
  [Str s; Str "\n"] ++
  (match h with ByAssert => [] | _ => [Str "Expected "; Quote l; Str " "; Quote [TOp (opposite r)]; Str " "; Quote q; Str "\n"] end) ++
  [Str "  "; Quote l; Str " = "].
Definition mid_items (q : list token) : list expr := [Str "  "; Quote q; Str " = "].
Definition post_items : list expr := [Str "\n"].
(** The relation a macro really tests. *)
Definition tested (m : macro) (r : op) : op := if wrong m then Ge else r.
Definition text (m : bool) (s : string) : string := if m then s else "".

Lemma expansion_eq m h r b nd e1 e2 s ty : promise m = Some (h, r, b) -> (h = ByAssert -> nd = false) ->
  let items := pre_items h (tested m r) (render e1) (render e2) (text b s) ++ e1 :: Str "\n" :: mid_items (render e2) ++ e2 :: Str "\n" :: post_items in
  exists exp msg,
    expansion nd m (arguments h b (render e1) (render e2) s ty) = Some (match h with ByException => CThrow exp msg | _ => CError exp msg end) /\
    exp = (match h with
           | ByAssert => TNot :: TLp :: render e1 ++ TOp (tested m r) :: render e2 ++ [TRp]
           | _ => render e1 ++ TOp (tested m r) :: render e2
           end) /\
    message msg = toks items.
Proof.
  intros P A items. unfold items. clear items. destruct h; [| |rewrite (A eq_refl) in *; clear A];
  (destruct m; try discriminate P; injection P as <- <-; unfold expansion;
   cbn [expand definition arguments app map flat_map subst nth op_message assert_message empty];
   eexists; eexists; (split; [reflexivity|]);
   (split; [cbn; rewrite ?app_nil_r, <- ?app_assoc; reflexivity|]);
   cbn; rewrite ?app_nil_r; repeat (rewrite <- ?app_assoc; cbn [app]); reflexivity).
Qed.

(** The tree of the tested expression. *)
Definition test_of (h : how) (r : op) (e1 e2 : expr) : expr :=
  match h with ByAssert => Not (Paren (Bin r e1 e2)) | _ => Bin r e1 e2 end.
Definition is_rel (r : op) : Prop := 6 <= prec r <= 7.
Lemma promise_rel m h r b : promise m = Some (h, r, b) -> is_rel r /\ is_rel (tested m r).
Proof. unfold is_rel. destruct m; intros X; try discriminate X; injection X as <- <- <-; cbn; lia. Qed.
Lemma rel_apply r x y : is_rel r -> apply r x y = Some (truth (holds r x y)).
Proof.
  unfold is_rel. destruct r; cbn; try lia; intros _; f_equal; f_equal;
    rewrite ?Z.gtb_ltb, ?Z.geb_leb; reflexivity.
Qed.

Section Macro.
Variables (m : macro) (h : how) (r : op) (b nd : bool) (e1 e2 : expr) (s : string) (ty : list token).
Hypothesis PR : promise m = Some (h, r, b).
Hypothesis ND : h = ByAssert -> nd = false.
Hypothesis W1 : wf e1.
Hypothesis W2 : wf e2.
Hypothesis N1 : numeric e1 = true.
Hypothesis N2 : numeric e2 = true.

Let items := pre_items h (tested m r) (render e1) (render e2) (text b s) ++ e1 :: Str "\n" :: mid_items (render e2) ++ e2 :: Str "\n" :: post_items.

Lemma lit_pre l q t : Forall literal (pre_items h (tested m r) l q t).
Proof. unfold pre_items. destruct h; cbn; repeat constructor. Qed.
Lemma lit_mid q : Forall literal (mid_items q).
Proof. repeat constructor. Qed.
Lemma lit_post : Forall literal post_items.
Proof. repeat constructor. Qed.

Lemma test_parse : printable e1 = true -> printable e2 = true ->
  parse (render (test_of h (tested m r) e1 e2)) = Some (test_of h (tested m r) e1 e2) /\
  type_of (test_of h (tested m r) e1 e2) = Some Int.
Proof.
  intros P1 P2. pose proof (printable_level _ P1 W1) as L1. pose proof (printable_level _ P2 W2) as L2.
  destruct (@promise_rel _ _ _ _ PR) as [_ R]. unfold is_rel in R. split.
  - apply parse_render. unfold test_of. destruct h; cbn [wf level]; repeat split; auto; lia.
  - assert (X : type_of (Bin (tested m r) e1 e2) = Some Int) by (apply numeric_type; cbn; rewrite N1, N2; auto).
    unfold test_of. destruct h; auto. change (type_of (Not (Paren (Bin (tested m r) e1 e2)))) with
      (match type_of (Bin (tested m r) e1 e2) with Some _ => Some Int | None => None end). rewrite X. reflexivity.
Qed.

Lemma code_shape : exists msg,
  expansion nd m (arguments h b (render e1) (render e2) s ty) =
    Some (match h with ByException => CThrow | _ => CError end (render (test_of h (tested m r) e1 e2)) msg) /\
  message msg = toks items.
Proof.
  destruct (@expansion_eq m h r b nd e1 e2 s ty PR ND) as (ex & msg & E & Ex & M). exists msg. split; auto.
  rewrite E. subst ex. destruct h; cbn [test_of render]; auto.
  rewrite <- app_assoc. reflexivity.
Qed.

Lemma macro_compiles : exists c, expansion nd m (arguments h b (render e1) (render e2) s ty) = Some c /\
  (compiles c = true <-> printable e1 = true /\ printable e2 = true).
Proof.
  destruct code_shape as (msg & E & M). eexists. split; [exact E|].
  destruct (@message_iff (pre_items h (tested m r) (render e1) (render e2) (text b s)) e1 "\n" (mid_items (render e2)) e2 "\n" post_items
    (lit_pre _ _ _) (lit_mid _) lit_post W1 N1 W2 N2) as [F B]. fold items in F, B.
  assert (C : compiles ((match h with ByException => CThrow | _ => CError end) (render (test_of h (tested m r) e1 e2)) msg) =
    match parse (render (test_of h (tested m r) e1 e2)), parse (toks items) with
      | Some e', Some s' =>
          match type_of e', type_of s' with Some _, Some _ => true | _, _ => false end
      | _, _ => false
      end) by (rewrite <- M; destruct h; reflexivity).
  rewrite C. split.
  - intros X. destruct (parse (render (test_of h (tested m r) e1 e2))) as [t|]; [|discriminate].
    destruct (parse (toks items)) as [t'|] eqn:Et; [|discriminate]. apply (B t' eq_refl).
    intros Y. rewrite Y in X. destruct (type_of t); discriminate.
  - intros (P1 & P2). destruct (test_parse P1 P2) as (Tp & Tt). rewrite Tp, Tt. destruct (F P1 P2) as (Fp & Ft). rewrite Fp, Ft. reflexivity.
Qed.

Lemma macro_runs env v1 u1 v2 u2 : printable e1 = true -> printable e2 = true ->
  eval env e1 = Some (v1, u1) -> eval env e2 = Some (v2, u2) ->
  exists c w, expansion nd m (arguments h b (render e1) (render e2) s ty) = Some c /\
    run_code env c = Some
      (if match h with ByAssert => negb (holds (tested m r) v1 v2) | _ => holds (tested m r) v1 v2 end
       then match h with ByException => Exception | _ => Handler end ((u1 ++ u2) ++ u1 ++ u2) w
       else Silent (u1 ++ u2)) /\
    (9 <= level e1 -> 9 <= level e2 ->
       w = expected h (tested m r) (render e1) (render e2) (text b s) v1 v2).
Proof.
  intros P1 P2 E1 E2. destruct code_shape as (msg & E & M).
  destruct (@message_output env (pre_items h (tested m r) (render e1) (render e2) (text b s)) e1 "\n" (mid_items (render e2)) e2 "\n" post_items
    v1 u1 v2 u2 (lit_pre _ _ _) (lit_mid _) lit_post N1 N2 P1 P2 E1 E2) as (ws1 & ws2 & O & K1 & K2). fold items in O.
  eexists. exists (lits (pre_items h (tested m r) (render e1) (render e2) (text b s)) ++ ws1 ++ WStr "\n" :: lits (mid_items (render e2)) ++ ws2 ++ WStr "\n" :: lits post_items).
  split; [exact E|].
  destruct macro_compiles as (c & Ec & Ic). rewrite E in Ec. injection Ec as <-.
  destruct Ic as [_ Ic]. specialize (Ic (conj P1 P2)).
  destruct (@message_iff (pre_items h (tested m r) (render e1) (render e2) (text b s)) e1 "\n" (mid_items (render e2)) e2 "\n" post_items
    (lit_pre _ _ _) (lit_mid _) lit_post W1 N1 W2 N2) as [F _]. fold items in F. destruct (F P1 P2) as (Fp & _).
  destruct (test_parse P1 P2) as (Tp & _). destruct (@promise_rel _ _ _ _ PR) as [_ R].
  assert (EV : eval env (Bin (tested m r) e1 e2) = Some (truth (holds (tested m r) v1 v2), u1 ++ u2)).
  { cbn [eval]. rewrite E1, E2. rewrite rel_apply by auto. unfold is_rel in R.
    destruct (tested m r); cbn in R; try lia; reflexivity. }
  split.
  - unfold run_code. rewrite Ic. cbn [negb]. rewrite <- M in Fp. clear Ic E ND.
    destruct h; rewrite Tp, Fp; unfold test_of.
    + rewrite EV. destruct (holds (tested m r) v1 v2); cbn [truth Z.eqb]; [rewrite O|]; reflexivity.
    + rewrite EV. destruct (holds (tested m r) v1 v2); cbn [truth Z.eqb]; [rewrite O|]; reflexivity.
    + change (eval env (Not (Paren (Bin (tested m r) e1 e2)))) with
        (match eval env (Bin (tested m r) e1 e2) with Some (x, t) => Some (truth (x =? 0)%Z, t) | None => None end).
      rewrite EV. destruct (holds (tested m r) v1 v2); cbn [truth Z.eqb negb]; [|rewrite O]; reflexivity.
  - intros L1 L2. rewrite (K1 L1), (K2 L2). unfold pre_items, expected. destruct h; reflexivity.
Qed.
End Macro.
