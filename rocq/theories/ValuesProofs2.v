(** Programs over objects whose operations match those on plain values. *)
From Coq Require Import List Arith Lia Bool Permutation.
From Verif Require Import Base BaseProofs Values ValuesSpec ValuesProofs.
Import ListNotations.
Set Implicit Arguments.
Unset Strict Implicit.

Section G.
Variable M St F X : Type.
Variable cl : class M St F.
Variable fresh blank : X.
Variable step : F -> X -> option X.
Variable assign : X -> X -> option X.
Variable self : X -> option X.
Variable left : X -> X.
Variable leaks : bool.
Variable void : X -> bool.
Variable R : M * St -> X -> Prop.
Hypothesis null_nothing : is_null cl (nothing cl) = true.
Hypothesis null_eq : forall s, is_null cl s = true -> s = nothing cl.
Hypothesis Hleaks : leaks = negb (frees cl).
Hypothesis Hnew : R (members cl, initial cl) fresh.
Hypothesis Hblank : R (members cl, nothing cl) blank.
Variable allowed : F -> X -> Prop.
Hypothesis Hcall : forall f v x x', R v x -> allowed f x -> step f x = Some x' -> exists v', call cl f v = Ok v' /\ R v' x'.
Hypothesis Hcopy : forall v x w y z, R v x -> R w y -> assign x y = Some z -> exists v', assign_copy cl v w = Ok v' /\ R v' z.
Hypothesis Hself : forall v x z, R v x -> self x = Some z -> exists v', assign_self cl v = Ok v' /\ R v' z.
Hypothesis Hmoved : forall m s x, R (m, s) x -> R (moved cl m, nothing cl) (left x).
Hypothesis Hdtor : forall v x, R v x -> destructor cl v = Ok tt.
Hypothesis Hvoid : forall m x, R (m, nothing cl) x -> void x = true.

Definition opt (o : option (M * St)) (x : option X) : Prop :=
  match o, x with Some v, Some x => R v x | None, None => True | _, _ => False end.
(** lost storage holds the forgotten values; in addition there may be storage of void values *)
Definition lrel (ls : list St) (xs : list X) : Prop :=
  exists ys, Forall2 (fun s y => exists m, R (m, s) y) ls ys /\ filter (fun y => negb (void y)) ys = xs.
Definition vrel (vs : values M St) (e : env X) : Prop := Forall2 opt (fst vs) (fst e) /\ lrel (snd vs) (snd e).

Lemma opt_var vs e x v : Forall2 opt vs e -> match nth_error e x with Some o => o | None => None end = Some v ->
  exists w, var vs x = Ok w /\ R w v /\ x < length vs.
Proof.
  intros Fl. revert x. induction Fl as [|o o' vs e Ro Fl IH]; intros [|x] E; try discriminate.
  - cbn in E. subst o'. destruct o as [w|]; [|contradiction]. exists w. cbn. repeat split; auto. lia.
  - destruct (IH x E) as (w & Ew & Rw & Lx). exists w. cbn in *. unfold var in *. cbn. repeat split; auto. lia.
Qed.
Lemma opt_upd vs e x o o' : Forall2 opt vs e -> opt o o' -> Forall2 opt (upd vs x o) (upd e x o').
Proof. intros Fl Ro. revert x. induction Fl as [|a b vs e Rab Fl IH]; intros [|x]; cbn; constructor; auto. Qed.
Lemma opt_snoc vs e o o' : Forall2 opt vs e -> opt o o' -> Forall2 opt (vs ++ [o]) (e ++ [o']).
Proof. intros Fl Ro. apply Forall2_app; auto. Qed.
Lemma var_app {Y} (l : list (option Y)) o x w : var l x = Ok w -> var (l ++ [o]) x = Ok w.
Proof.
  unfold var. intros H. destruct (nth_error l x) as [[y|]|] eqn:E; try discriminate. rewrite nth_error_app1 by (apply nth_error_Some; congruence). rewrite E. exact H.
Qed.
Lemma var_last {Y} (l : list (option Y)) w : var (l ++ [Some w]) (length l) = Ok w.
Proof. unfold var. rewrite nth_error_app2, Nat.sub_diag by lia. reflexivity. Qed.
Lemma upd_last' {Y} (l : list Y) a b : upd (l ++ [a]) (length l) b = l ++ [b].
Proof. induction l as [|c l IH]; cbn; [|rewrite IH]; reflexivity. Qed.
Lemma upd_app {Y} (l : list Y) a x b : x < length l -> upd (l ++ [a]) x b = upd l x b ++ [a].
Proof. revert x. induction l as [|c l IH]; intros [|x] H; cbn in *; try lia; auto. rewrite IH by lia. reflexivity. Qed.
Lemma f2len vs e : Forall2 opt vs e -> length vs = length e.
Proof. induction 1; cbn; congruence. Qed.

Lemma plain_ok i vs e e' : vrel vs e -> fulfils allowed i e -> plain fresh blank step assign self left leaks void i e = Some e' ->
  exists vs', v_execute cl i vs = Ok vs' /\ vrel vs' e'.
Proof.
  intros [Fl Lr] Al H. pose proof (f2len Fl) as El. destruct i as [|y|y|x f|x y|x y|x]; cbn [plain v_execute] in *.
  - injection H as <-. eexists. split; [reflexivity|]. split; [|exact Lr]. apply opt_snoc; auto.
  - destruct (value e y) as [w|] eqn:Ey; [|discriminate]. destruct (assign blank w) as [z|] eqn:Ez; [|discriminate]. injection H as <-.
    destruct (opt_var Fl Ey) as (w' & Vy & Ry & Ly). unfold v_copy. cbn [fst snd]. rewrite var_last. cbn [bind].
    rewrite (var_app _ Vy). cbn [bind]. destruct (Nat.eqb_spec (length (fst vs)) y) as [Eq|Ne]; [lia|].
    destruct (Hcopy Hblank Ry Ez) as (v' & -> & Rv). cbn [bind]. eexists. split; [reflexivity|]. unfold set. cbn [fst snd]. rewrite upd_last'. split; [|exact Lr].
    apply opt_snoc; auto.
  - destruct (value e y) as [w|] eqn:Ey; [|discriminate]. injection H as <-.
    destruct (opt_var Fl Ey) as (w' & Vy & Ry & Ly). rewrite (var_app _ Vy). cbn [bind]. eexists. split; [reflexivity|]. rewrite upd_app by exact Ly. split; [|exact Lr].
    cbn [fst]. apply opt_snoc; auto. apply opt_upd; auto. cbn. destruct w' as [m s]. cbn [fst]. eapply Hmoved. exact Ry.
  - destruct (value e x) as [w|] eqn:Ex; [|discriminate]. destruct (step f w) as [z|] eqn:Ez; [|discriminate]. injection H as <-.
    destruct (opt_var Fl Ex) as (w' & -> & Rx & Lx). cbn [bind]. destruct (Hcall Rx (Al _ Ex) Ez) as (v' & -> & Rv). cbn [bind]. eexists. split; [reflexivity|]. split; [|exact Lr]. apply opt_upd; auto.
  - destruct (value e x) as [v|] eqn:Ex; [|discriminate]. destruct (value e y) as [w|] eqn:Ey; [|discriminate]. destruct (if x =? y then self v else assign v w) as [z|] eqn:Ez; [|discriminate]. injection H as <-.
    destruct (opt_var Fl Ex) as (v' & Vx & Rx & Lx). destruct (opt_var Fl Ey) as (w' & Vy & Ry & Ly). unfold v_copy. rewrite Vx, Vy. cbn [bind].
    assert (exists v2, (if x =? y then assign_self cl v' else assign_copy cl v' w') = Ok v2 /\ R v2 z) as (v2 & -> & R2).
    { destruct (Nat.eqb_spec x y) as [->|Ne]; [|eapply Hcopy; eassumption]. rewrite Ex in Ey. injection Ey as <-. eapply Hself; eassumption. }
    cbn [bind]. eexists. split; [reflexivity|]. split; [|exact Lr]. apply opt_upd; auto.
  - destruct (value e x) as [v|] eqn:Ex; [|discriminate]. destruct (value e y) as [w|] eqn:Ey; [|discriminate]. destruct (Nat.eqb_spec x y) as [|Ne]; [discriminate|]. injection H as <-.
    destruct (opt_var Fl Ex) as (v' & Vx & Rx & Lx). destruct (opt_var Fl Ey) as (w' & Vy & Ry & Ly). rewrite Vx. cbn [bind].
    assert (Hd : (if frees cl then destructor cl v' else Ok tt) = Ok tt) by (destruct (frees cl); auto; eapply Hdtor; exact Rx). rewrite Hd. cbn [bind].
    destruct (frees cl) eqn:Ef; cbn [negb] in Hleaks; rewrite Hleaks.
    + cbn [set fst]. assert (Vy1 : var (upd (fst vs) x (Some (freed cl (fst v'), nothing cl))) y = Ok w') by (unfold var in *; rewrite nth_error_upd_ne by congruence; exact Vy).
      rewrite Vy1. cbn [bind]. eexists. split; [reflexivity|]. split; [|exact Lr]. cbn [fst set].
      assert (Uu : forall Z (l : list Z) a b, upd (upd l x a) x b = upd l x b) by (clear; intros Z l; revert x; induction l as [|c l IH]; intros [|x] a b; cbn; auto; f_equal; auto).
      rewrite Uu. apply opt_upd; [apply opt_upd; auto|]. cbn. destruct w' as [m s]. eapply Hmoved. exact Ry.
    + cbn [fst snd]. rewrite Vy. cbn [bind]. eexists. split; [reflexivity|]. unfold set. cbn [fst snd]. split.
      * cbn [fst]. apply opt_upd; [apply opt_upd; auto|]. cbn. destruct w' as [m s]. eapply Hmoved. exact Ry.
      * destruct Lr as (ys & Fy & Ey'). cbn [snd]. unfold lose. destruct v' as [m s]. cbn [snd]. destruct (is_null cl s) eqn:En.
        -- apply null_eq in En. subst s. rewrite (Hvoid Rx). cbn. exists ys. auto.
        -- exists (v :: ys). split; [constructor; [exists m; exact Rx|exact Fy]|]. cbn [filter]. destruct (void v); cbn; congruence.
  - destruct (value e x) as [v|] eqn:Ex; [|discriminate]. injection H as <-. destruct (opt_var Fl Ex) as (v' & -> & Rx & Lx). cbn [bind]. rewrite (Hdtor Rx). cbn [bind].
    eexists. split; [reflexivity|]. split; [|exact Lr]. apply opt_upd; [exact Fl|exact Logic.I].
Qed.
Lemma plains_ok p : forall vs e e', vrel vs e -> admitted fresh blank step assign self left leaks void allowed p e -> plains fresh blank step assign self left leaks void p e = Some e' ->
  exists vs', v_executes cl p vs = Ok vs' /\ vrel vs' e'.
Proof.
  induction p as [|i p IH]; intros vs e e' Rl Al H; cbn [plains v_executes admitted] in *.
  - injection H as <-. exists vs. auto.
  - destruct (plain _ _ _ _ _ _ _ _ i e) as [e1|] eqn:E; [|discriminate]. destruct Al as [Al Al']. destruct (plain_ok Rl Al E) as (vs1 & -> & R1). cbn [bind]. eapply IH; eassumption.
Qed.

(** What is visible of the final state. *)
Definition final (st : state M St) (e : env X) : Prop :=
  (forall x v, value e x = Some v -> exists w, content cl st x = Ok w /\ R w v) /\
  (forall x, value e x = None -> var (vars st) x = Fault FDangling) /\
  NoDup (owned st) /\
  exists lost, Permutation (live st) (owned st ++ lost) /\
    exists ss ys, Forall2 (fun k s => nth_error (heap st) k = Some (Some s)) lost ss /\
      Forall2 (fun s y => exists m, R (m, s) y) ss ys /\ filter (fun y => negb (void y)) ys = snd e.

Lemma rel_final st vs e : rel cl st vs -> vrel vs e -> final st e.
Proof.
  intros (lp & Fl & ND & Li & Lo) [Fv Lr]. split; [|split; [|split]].
  - intros x v Hx. destruct (opt_var Fv Hx) as (w & Vw & Rw & _). exists w. split; [|exact Rw]. unfold content.
    destruct (@var_cases _ _ _ cl _ _ _ x Fl) as [(ob & m & s & _ & _ & -> & V' & Ro)|[_ V']]; [|congruence].
    rewrite Vw in V'. injection V' as ->. cbn [bind]. rewrite (load_ok Ro). cbn [bind]. rewrite (proj1 Ro). reflexivity.
  - intros x Hx. destruct (@var_cases _ _ _ cl _ _ _ x Fl) as [(ob & m & s & _ & E' & _ & V' & Ro)|[V _]]; [|exact V]. exfalso. unfold value in Hx.
    clear -Fv E' Hx. revert x E' Hx. induction Fv as [|o o' a b Ro Fv IH]; intros [|x] E' Hx; try discriminate; cbn in *; [|eapply IH; eassumption].
    injection E' as ->. subst o'. exact Ro.
  - change (owned st) with (handles (vars st)). clear -ND. induction (handles (vars st)) as [|k l IH]; constructor; inversion ND; subst; auto. intros Hin. apply H1. apply in_or_app. auto.
  - exists lp. split.
    + change (owned st) with (handles (vars st)). apply NoDup_Permutation; [apply NoDup_filter, seq_NoDup|exact ND|]. intros k. unfold live. rewrite filter_In, in_seq. split.
      * intros [_ Hk]. destruct (nth_error (heap st) k) as [[s|]|] eqn:E; try discriminate. eapply Li. exact E.
      * intros Hin. assert (exists s, nth_error (heap st) k = Some (Some s)) as (s & Es).
        { apply in_app_or in Hin. destruct Hin as [Hin|Hin].
          - clear -Fl Hin. induction Fl as [|o v L L' Ro Fl IH]; [destruct Hin|]. cbn [handles flat_map] in Hin. apply in_app_or in Hin. destruct Hin as [Hin|Hin]; [|auto].
            unfold orel in Ro. destruct o as [ob|]; [|destruct Hin]. destruct v as [[m s]|]; [|contradiction]. destruct Ro as [_ Ro]. cbn in Hin. destruct (o_handle ob); [|destruct Hin].
            destruct Hin as [<-|[]]. exists s. apply Ro.
          - clear -Lo Hin. induction Lo as [|k0 s0 l ss L0 Lo IH]; [destruct Hin|]. destruct Hin as [->|Hin]; [exists s0; exact L0|auto]. }
        rewrite Es. split; [|reflexivity]. split; [lia|]. cbn. eapply nth_lt. exact Es.
    + destruct Lr as (ys & Fy & Ey). exists (snd vs), ys. auto.
Qed.
Theorem program_ok_if p e : admitted fresh blank step assign self left leaks void allowed p ([], []) ->
  plains fresh blank step assign self left leaks void p ([], []) = Some e ->
  exists st, executes cl p (mkState [] []) = Ok st /\ final st e.
Proof.
  intros Al H. destruct (@plains_ok p ([], []) ([], []) e) as (vs & Ev & Rv); [split; [constructor|exists []; split; [constructor|reflexivity]]|exact Al|exact H|].
  pose proof (executes_agrees null_nothing null_eq p (start_rel cl)) as A. unfold agrees in A. rewrite Ev in A. destruct A as (st & Es & Rs). exists st. split; [exact Es|]. eapply rel_final; eassumption.
Qed.
End G.
Section G2.
Variable F X : Type.
Lemma admitted_all fresh blank step assign self left leaks void p e :
  @admitted F X fresh blank step assign self left leaks void (fun _ _ => True) p e.
Proof. revert e. induction p as [|i p IH]; intros e; cbn [admitted]; auto. split; [destruct i; cbn; auto|]. destruct (plain _ _ _ _ _ _ _ _ i e); auto. Qed.
End G2.
Theorem program_ok M St F X (cl : class M St F) (fresh blank : X) step assign self left leaks void (R : M * St -> X -> Prop) :
  is_null cl (nothing cl) = true -> (forall s, is_null cl s = true -> s = nothing cl) -> leaks = negb (frees cl) ->
  R (members cl, initial cl) fresh -> R (members cl, nothing cl) blank ->
  (forall f v x x', R v x -> step f x = Some x' -> exists v', call cl f v = Ok v' /\ R v' x') ->
  (forall v x w y z, R v x -> R w y -> assign x y = Some z -> exists v', assign_copy cl v w = Ok v' /\ R v' z) ->
  (forall v x z, R v x -> self x = Some z -> exists v', assign_self cl v = Ok v' /\ R v' z) ->
  (forall m s x, R (m, s) x -> R (moved cl m, nothing cl) (left x)) ->
  (forall v x, R v x -> destructor cl v = Ok tt) ->
  (forall m x, R (m, nothing cl) x -> void x = true) ->
  forall p e, plains fresh blank step assign self left leaks void p ([], []) = Some e ->
  exists st, executes cl p (mkState [] []) = Ok st /\ final cl void R st e.
Proof.
  intros H1 H2 H3 H4 H5 H6 H7 H8 H9 H10 H11 p e H.
  eapply (@program_ok_if M St F X cl fresh blank step assign self left leaks void R H1 H2 H3 H4 H5 (fun _ _ => True)); eauto. apply admitted_all.
Qed.

(** Programs which never forget storage: no move assignment, or one which frees. *)
Section L.
Variable M St F : Type.
Variable cl : class M St F.
Hypothesis null_nothing : is_null cl (nothing cl) = true.
Hypothesis null_eq : forall s, is_null cl s = true -> s = nothing cl.
Definition moves (i : stmt F) : bool := match i with Move _ _ => true | _ => false end.

Lemma keeps_lost i vs vs' : frees cl = true \/ moves i = false -> v_execute cl i vs = Ok vs' -> snd vs' = snd vs.
Proof.
  intros H E. destruct i as [|y|y|x f|x y|x y|x]; cbn [v_execute] in E.
  - injection E as <-. reflexivity.
  - unfold v_copy in E. destruct (var _ _) as [v| |]; try discriminate. cbn [bind] in E. destruct (var _ _) as [w| |]; try discriminate. cbn [bind] in E.
    match type of E with context [if ?c then ?a else ?b] => destruct (if c then a else b) as [z| |] end; try discriminate. injection E as <-. reflexivity.
  - destruct (var _ _) as [v| |]; try discriminate. injection E as <-. reflexivity.
  - destruct (var _ _) as [v| |]; try discriminate. cbn [bind] in E. destruct (call _ _ _) as [z| |]; try discriminate. injection E as <-. reflexivity.
  - unfold v_copy in E. destruct (var _ _) as [v| |]; try discriminate. cbn [bind] in E. destruct (var _ _) as [w| |]; try discriminate. cbn [bind] in E.
    match type of E with context [if ?c then ?a else ?b] => destruct (if c then a else b) as [z| |] end; try discriminate. injection E as <-. reflexivity.
  - destruct H as [H|H]; [|discriminate]. rewrite H in E. destruct (var (fst vs) x) as [v| |]; try discriminate. cbn [bind] in E.
    destruct (destructor cl v) as [u| |]; try discriminate. cbn [bind] in E. destruct (var _ _) as [w| |]; try discriminate. injection E as <-. reflexivity.
  - destruct (var _ _) as [v| |]; try discriminate. cbn [bind] in E. destruct (destructor cl v) as [u| |]; try discriminate. injection E as <-. reflexivity.
Qed.
Lemma keeps_lost_all p : forall vs vs', frees cl = true \/ forallb (fun i => negb (moves i)) p = true -> v_executes cl p vs = Ok vs' -> snd vs' = snd vs.
Proof.
  induction p as [|i p IH]; intros vs vs' H E; cbn [v_executes forallb] in *; [injection E as <-; reflexivity|].
  destruct (v_execute cl i vs) as [v1| |] eqn:E1; try discriminate. cbn [bind] in E.
  rewrite (IH v1 vs'); [eapply keeps_lost; [|exact E1]| |exact E].
  - destruct H as [H|H]; [auto|]. apply andb_true_iff in H. destruct (moves i); [destruct H; discriminate|auto].
  - destruct H as [H|H]; [auto|]. apply andb_true_iff in H. tauto.
Qed.
Theorem no_leak p st : frees cl = true \/ forallb (fun i => negb (moves i)) p = true ->
  executes cl p (mkState [] []) = Ok st -> Permutation (live st) (owned st).
Proof.
  intros H E. pose proof (executes_agrees null_nothing null_eq p (start_rel cl)) as A. unfold agrees in A.
  destruct (v_executes cl p ([], [])) as [vs| |] eqn:Ev; [|congruence|congruence]. destruct A as (st' & Es & (lp & Fl & ND & Li & Lo)).
  rewrite Es in E. injection E as ->. rewrite (keeps_lost_all H Ev) in Lo. cbn in Lo. inversion Lo; subst. rewrite app_nil_r in *.
  change (owned st) with (handles (vars st)). apply NoDup_Permutation; [apply NoDup_filter, seq_NoDup|exact ND|]. intros k. unfold live. rewrite filter_In, in_seq. split.
  - intros [_ Hk]. destruct (nth_error (heap st) k) as [[s|]|] eqn:Ek; try discriminate. eapply Li. exact Ek.
  - intros Hin. assert (exists s, nth_error (heap st) k = Some (Some s)) as (s & Ess).
    { clear -Fl Hin. induction Fl as [|o v L L' Ro Fl IH]; [destruct Hin|]. cbn [handles flat_map] in Hin. apply in_app_or in Hin. destruct Hin as [Hin|Hin]; [|auto].
      unfold orel in Ro. destruct o as [ob|]; [|destruct Hin]. destruct v as [[m s]|]; [|contradiction]. destruct Ro as [_ Ro]. cbn in Hin. destruct (o_handle ob); [|destruct Hin].
      destruct Hin as [<-|[]]. exists s. apply Ro. }
    rewrite Ess. split; [|reflexivity]. split; [lia|]. cbn. eapply nth_lt. exact Ess.
Qed.
End L.
