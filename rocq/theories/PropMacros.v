(** Property C77: the comparison macros of Macros.hpp. Statements use MacrosSpec only besides the modelled
    preprocessor, parser and evaluation. *)
From Coq Require Import List Arith ZArith Lia Bool String.
From Verif Require Import Macros MacrosSpec.
From Verif Require MacrosProofs MacrosProofs2.
Import ListNotations.
Set Implicit Arguments.
Unset Strict Implicit.
Local Open Scope string_scope.
Local Open Scope list_scope.

(** C77: the parser used below is exact: what it accepts is the operator grammar of C++, and every way of writing an
    expression without superfluous ambiguity is read back. *)
Theorem C77_grammar : forall ts e,
  parse ts = Some e <-> (ts = MacrosProofs.render e /\ MacrosProofs.wf e).
Proof. exact MacrosProofs.parse_iff. Qed.
Print Assumptions C77_grammar.

(** C77: whatever numeric expressions are passed, unparenthesised in the macro: the use compiles exactly if both can
    stand in a chain of <<. *)
Theorem C77_compiles : forall m h r b nd lhs rhs e1 e2 s ty,
  promise m = Some (h, r, b) -> (h = ByAssert -> nd = false) ->
  parse lhs = Some e1 -> parse rhs = Some e2 -> numeric e1 = true -> numeric e2 = true ->
  exists c, expansion nd m (arguments h b lhs rhs s ty) = Some c /\
    (compiles c = true <-> printable e1 = true /\ printable e2 = true).
Proof.
  intros m h r b nd lhs rhs e1 e2 s ty PR ND X1 X2 N1 N2.
  apply MacrosProofs.parse_inv in X1, X2. destruct X1 as (-> & W1), X2 as (-> & W2).
  eapply MacrosProofs2.macro_compiles; eauto.
Qed.
Print Assumptions C77_compiles.

(** C77: every comparison macro but two: it reports exactly if the relation of its name holds between the values, it
    evaluates the operands once when silent and twice when it reports, and shows the values it compared. *)
Theorem C77_fires : forall m h r b nd lhs rhs e1 e2 s ty env v1 t1 v2 t2,
  promise m = Some (h, r, b) -> wrong m = false -> h <> ByAssert ->
  parse lhs = Some e1 -> parse rhs = Some e2 -> numeric e1 = true -> numeric e2 = true ->
  printable e1 = true -> printable e2 = true ->
  eval env e1 = Some (v1, t1) -> eval env e2 = Some (v2, t2) ->
  exists c w, expansion nd m (arguments h b lhs rhs s ty) = Some c /\
    run_code env c = Some
      (if holds r v1 v2
       then match h with ByException => Exception | _ => Handler end ((t1 ++ t2) ++ t1 ++ t2) w
       else Silent (t1 ++ t2)) /\
    (9 <= level e1 -> 9 <= level e2 -> w = expected h r lhs rhs (if b then s else "") v1 v2).
Proof.
  intros m h r b nd lhs rhs e1 e2 s ty env v1 t1 v2 t2 PR NW NA X1 X2 N1 N2 P1 P2 E1 E2.
  apply MacrosProofs.parse_inv in X1, X2. destruct X1 as (-> & W1), X2 as (-> & W2).
  assert (ND : h = ByAssert -> nd = false) by (intros K; exfalso; exact (NA K)).
  destruct (@MacrosProofs2.macro_runs m h r b nd e1 e2 s ty PR ND W1 W2 N1 N2 env v1 t1 v2 t2 P1 P2 E1 E2) as (c & w & E & R & K).
  unfold MacrosProofs2.tested in *. rewrite NW in *. exists c, w. split; [exact E|]. split; [|exact K].
  rewrite R. destruct h; congruence.
Qed.
Print Assumptions C77_fires.

(** C77: assertions report exactly if the relation fails, and only without NDEBUG; with it the operands are not even
    compiled. *)
Theorem C77_assertions : forall m r b lhs rhs s ty,
  promise m = Some (ByAssert, r, b) ->
  (expansion true m (arguments ByAssert b lhs rhs s ty) = Some CVoid /\ forall env, run_code env CVoid = Some (Silent [])) /\
  forall e1 e2 env v1 t1 v2 t2,
    parse lhs = Some e1 -> parse rhs = Some e2 -> numeric e1 = true -> numeric e2 = true ->
    printable e1 = true -> printable e2 = true -> eval env e1 = Some (v1, t1) -> eval env e2 = Some (v2, t2) ->
    exists c w, expansion false m (arguments ByAssert b lhs rhs s ty) = Some c /\
      run_code env c = Some (if holds r v1 v2 then Silent (t1 ++ t2) else Handler ((t1 ++ t2) ++ t1 ++ t2) w) /\
      (9 <= level e1 -> 9 <= level e2 -> w = expected ByAssert r lhs rhs (if b then s else "") v1 v2).
Proof.
  intros m r b lhs rhs s ty PR. split.
  - split; [|reflexivity]. destruct m; try discriminate PR; reflexivity.
  - intros e1 e2 env v1 t1 v2 t2 X1 X2 N1 N2 P1 P2 E1 E2.
    apply MacrosProofs.parse_inv in X1, X2. destruct X1 as (-> & W1), X2 as (-> & W2).
    destruct (@MacrosProofs2.macro_runs m ByAssert r b false e1 e2 s ty PR (fun _ => eq_refl) W1 W2 N1 N2 env v1 t1 v2 t2 P1 P2 E1 E2) as (c & w & E & R & K).
    assert (T : MacrosProofs2.tested m r = r) by (destruct m; try discriminate PR; reflexivity).
    rewrite T in *. exists c, w. split; [exact E|]. split; [|exact K]. rewrite R. destruct (holds r v1 v2); reflexivity.
Qed.
Print Assumptions C77_assertions.

(** C77, refuted for LVARRAY_ERROR_IF_LE and LVARRAY_THROW_IF_LE: they report exactly if lhs >= rhs. *)
Theorem C77_LE_refuted : forall m h r b nd lhs rhs e1 e2 s ty env v1 t1 v2 t2,
  promise m = Some (h, r, b) -> wrong m = true ->
  parse lhs = Some e1 -> parse rhs = Some e2 -> numeric e1 = true -> numeric e2 = true ->
  printable e1 = true -> printable e2 = true ->
  eval env e1 = Some (v1, t1) -> eval env e2 = Some (v2, t2) ->
  r = Le /\ exists c w, expansion nd m (arguments h b lhs rhs s ty) = Some c /\
    run_code env c = Some
      (if (v1 >=? v2)%Z
       then match h with ByException => Exception | _ => Handler end ((t1 ++ t2) ++ t1 ++ t2) w
       else Silent (t1 ++ t2)).
Proof.
  intros m h r b nd lhs rhs e1 e2 s ty env v1 t1 v2 t2 PR NW X1 X2 N1 N2 P1 P2 E1 E2.
  split; [destruct m; try discriminate NW; injection PR as <- <- <-; reflexivity|].
  apply MacrosProofs.parse_inv in X1, X2. destruct X1 as (-> & W1), X2 as (-> & W2).
  assert (NA : h <> ByAssert) by (destruct m; try discriminate NW; injection PR as <- <- <-; discriminate).
  assert (ND : h = ByAssert -> nd = false) by (intros K; exfalso; exact (NA K)).
  destruct (@MacrosProofs2.macro_runs m h r b nd e1 e2 s ty PR ND W1 W2 N1 N2 env v1 t1 v2 t2 P1 P2 E1 E2) as (c & w & E & R & K).
  unfold MacrosProofs2.tested in *. rewrite NW in *. exists c, w. split; [exact E|].
  rewrite R. cbn [holds]. destruct h; congruence.
Qed.
Print Assumptions C77_LE_refuted.

(** C77: an operand written with << compiles and is tested correctly, but its parts are written one after the other;
    one written with a comparison, a bit operation, a logical operator or >> does not compile. *)
Example C77_case :
  let x := [TId 0] in let y := [TId 1] in let env f := Z.of_nat (f + 3) in
  let run m args := match expansion false m args with Some c => run_code env c | None => None end in
  (* 3 <= 4, but ERROR_IF_LE is silent and ERROR_IF_LE_MSG is not *)
  run ERROR_IF_LE [x; y] = Some (Silent [0; 1]) /\
  (exists w, run ERROR_IF_LE_MSG [x; y; [TStr "m"]] = Some (Handler [0; 1; 0; 1] w)) /\
  run ASSERT_GE [y; x] = Some (Silent [1; 0]) /\
  (* x & y does not compile, ( x & y ) does; x << y is written as "34" *)
  run ERROR_IF_NE [x ++ TOp BAnd :: y; y] = None /\
  run ERROR_IF_NE [[TLp; TId 0; TOp BAnd; TId 0; TRp]; x] = Some (Silent [0; 0; 0]) /\
  match run ERROR_IF_NE [x ++ TOp Shl :: y; y] with
  | Some (Handler t w) => (t, flat_map (fun x => match x with WNum z => [z] | _ => [] end) w) = ([0; 1; 1; 0; 1; 1], [3; 4; 4]%Z)
  | _ => False end /\
  match run THROW_IF_GT [y; x; [TId 9]] with
  | Some (Exception _ w) => w = expected ByException Gt y x "" 4%Z 3%Z | _ => False end.
Proof.
  cbv zeta. repeat split; try (vm_compute; reflexivity). eexists. vm_compute. reflexivity.
Qed.
