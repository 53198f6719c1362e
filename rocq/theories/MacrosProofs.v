(** The parser is exact; which arguments compile; what the macros do. *)
From Coq Require Import List Arith ZArith Lia Bool String.
From Verif Require Import Macros MacrosSpec.
Import ListNotations.
Set Implicit Arguments.

Fixpoint render (e : expr) : list token :=
  match e with
  | Num z => [TNum z] | Id f => [TId f] | Str s => [TStr s] | Quote q => [TQuote q] | Stream => [TStream]
  | Paren e => TLp :: render e ++ [TRp]
  | Not e => TNot :: render e
  | Neg e => TOp Sub :: render e
  | Bin o l r => render l ++ TOp o :: render r
  end.
Fixpoint wf (e : expr) : Prop :=
  match e with
  | Paren e => wf e
  | Not e | Neg e => wf e /\ level e = 11
  | Bin o l r => wf l /\ wf r /\ prec o <= level l /\ prec o < level r
  | _ => True
  end.

Lemma prec_bounds o : 1 <= prec o <= 10.
Proof. destruct o; cbn; lia. Qed.
Lemma level_le e : level e <= 11.
Proof. destruct e; cbn; try lia. pose proof (prec_bounds o). lia. Qed.
Lemma level_pos e : 1 <= level e.
Proof. destruct e; cbn; try lia. pose proof (prec_bounds o). lia. Qed.
Lemma render_pos e : 1 <= List.length (render e).
Proof. induction e; cbn [render]; try (cbn; lia). rewrite app_length. cbn. lia. Qed.

(** The head of ts is no operator that binds at least as tightly as p. *)
Definition below (p : nat) (ts : list token) : Prop :=
  match ts with TOp o :: _ => prec o < p | _ => True end.

Lemma parse_sound n :
  (forall ts e r, parse_unary n ts = Some (e, r) -> ts = render e ++ r /\ wf e /\ level e = 11) /\
  (forall p ts e r, p <= 11 -> parse_at n p ts = Some (e, r) -> ts = render e ++ r /\ wf e /\ p <= level e /\ below p r) /\
  (forall p l ts e r, wf l -> p <= level l -> below (S (level l)) ts -> parse_more n p l ts = Some (e, r) ->
     render l ++ ts = render e ++ r /\ wf e /\ p <= level e /\ below p r).
Proof.
  induction n as [|n (IU & IA & IM)]; [repeat split; discriminate|]. split; [|split].
  - intros ts e r X. cbn [parse_unary] in X. destruct ts as [|t ts]; [discriminate|].
    destruct t; try (injection X as <- <-; cbn; auto; fail); try discriminate.
    + destruct (parse_at n 0 ts) as [[e' [|t' r']]|] eqn:E; try discriminate.
      destruct t'; try discriminate. injection X as <- <-.
      apply IA in E; [|lia]. destruct E as (-> & W & _). cbn. rewrite <- app_assoc. auto.
    + destruct (parse_unary n ts) as [[e' r']|] eqn:E; [|discriminate]. injection X as <- <-.
      apply IU in E. destruct E as (-> & W & L). cbn. auto.
    + destruct o; try discriminate. destruct (parse_unary n ts) as [[e' r']|] eqn:E; [|discriminate]. injection X as <- <-.
      apply IU in E. destruct E as (-> & W & L). cbn. auto.
  - intros p ts e r Hp X. cbn [parse_at] in X. destruct (parse_unary n ts) as [[l r']|] eqn:E; [|discriminate].
    apply IU in E. destruct E as (-> & W & L). apply IM in X; auto; [lia|].
    rewrite L. unfold below. destruct r' as [|[]]; auto. pose proof (prec_bounds o). lia.
  - intros p l ts e r W Hp B X. cbn [parse_more] in X. destruct ts as [|t ts].
    + injection X as <- <-. cbn. auto.
    + destruct t; try (injection X as <- <-; cbn; auto; fail).
      destruct (Nat.leb_spec p (prec o)).
      * destruct (parse_at n (S (prec o)) ts) as [[e' r']|] eqn:E; [|discriminate].
        pose proof (prec_bounds o). apply IA in E; [|lia]. destruct E as (-> & We & Le & Be).
        apply IM in X.
        -- cbn [render] in X. rewrite <- app_assoc in X. exact X.
        -- cbn. cbn in B. repeat split; auto; lia.
        -- cbn. auto.
        -- cbn. unfold below in *. destruct r' as [|[]]; auto.
      * injection X as <- <-. cbn in *. auto.
Qed.

Lemma parse_complete e : wf e ->
  (level e = 11 -> forall n r, 2 * List.length (render e) <= n -> parse_unary n (render e ++ r) = Some (e, r)) /\
  exists d, 1 <= d <= List.length (render e) /\
    forall n p r, p <= level e -> below (S (level e)) r -> 2 * List.length (render e) + 1 <= n ->
      parse_at n p (render e ++ r) = parse_more (n - d) p e r.
Proof.
  assert (UN : forall e, level e = 11 ->
    (forall n r, 2 * List.length (render e) <= n -> parse_unary n (render e ++ r) = Some (e, r)) ->
    exists d, 1 <= d <= List.length (render e) /\
      forall n p r, p <= level e -> below (S (level e)) r -> 2 * List.length (render e) + 1 <= n ->
      parse_at n p (render e ++ r) = parse_more (n - d) p e r).
  { intros f L U. exists 1. split; [pose proof (render_pos f); lia|]. intros n p r Hp B Hn. destruct n as [|n]; [lia|].
    cbn [parse_at]. rewrite U by lia. replace (S n - 1) with n by lia. reflexivity. }
  induction e as [z|f|s|q| |e IH|e IH|e IH|o l IHl r0 IHr]; intros W;
    try (match goal with |- (level ?x = 11 -> ?A) /\ _ => assert (U : A) end;
         [intros n r Hn; destruct n as [|n]; [cbn in Hn; lia|]; reflexivity|split; [auto|apply UN; auto]]; fail).
  - cbn [wf] in W. destruct (IH W) as (_ & d & Hd & Q).
    assert (U : forall n r, 2 * List.length (render (Paren e)) <= n -> parse_unary n (render (Paren e) ++ r) = Some (Paren e, r)).
    { intros n r Hn. cbn [render] in *. rewrite app_comm_cons, app_length in Hn. cbn in Hn. destruct n as [|n]; [lia|].
      rewrite <- app_comm_cons. cbn [parse_unary]. rewrite <- app_assoc. rewrite Q; [|lia|exact I|lia].
      destruct (n - d) as [|m] eqn:E; [lia|]. reflexivity. }
    split; [auto|apply UN; auto].
  - cbn [wf] in W. destruct W as (W & L). destruct (IH W) as (U0 & _). specialize (U0 L).
    assert (U : forall n r, 2 * List.length (render (Not e)) <= n -> parse_unary n (render (Not e) ++ r) = Some (Not e, r)).
    { intros n r Hn. cbn in Hn. destruct n as [|n]; [lia|]. cbn [render app parse_unary]. rewrite U0 by lia. reflexivity. }
    split; [auto|apply UN; auto].
  - cbn [wf] in W. destruct W as (W & L). destruct (IH W) as (U0 & _). specialize (U0 L).
    assert (U : forall n r, 2 * List.length (render (Neg e)) <= n -> parse_unary n (render (Neg e) ++ r) = Some (Neg e, r)).
    { intros n r Hn. cbn in Hn. destruct n as [|n]; [lia|]. cbn [render app parse_unary]. rewrite U0 by lia. reflexivity. }
    split; [auto|apply UN; auto].
  - cbn [wf] in W. destruct W as (Wl & Wr & Ll & Lr). pose proof (prec_bounds o) as PB.
    split; [cbn; lia|].
    destruct (IHl Wl) as (_ & dl & Hdl & Ql). destruct (IHr Wr) as (_ & dr & Hdr & Qr).
    exists (dl + 1). cbn [render]. rewrite app_length. cbn [List.length]. split; [lia|].
    intros n p r Hp B Hn. cbn [level] in *. rewrite <- app_assoc. rewrite Ql; [|lia|cbn; lia|lia].
    replace (n - dl) with (S (n - (dl + 1))) by lia. rewrite <- app_comm_cons. cbn [parse_more].
    destruct (Nat.leb_spec p (prec o)); [|lia].
    rewrite Qr; [|lia| |lia].
    + destruct (n - (dl + 1) - dr) as [|m] eqn:E; [lia|].
      assert (X : parse_more (S m) (S (prec o)) r0 r = Some (r0, r)).
      { cbn [parse_more]. destruct r as [|t r]; auto. destruct t as [| | | | | | | |o']; auto. cbn in B.
        destruct (Nat.leb_spec (S (prec o)) (prec o')); [lia|auto]. }
      rewrite X. reflexivity.
    + unfold below in *. destruct r as [|t r]; auto. destruct t; auto. lia.
Qed.

Lemma parse_render e : wf e -> parse (render e) = Some e.
Proof.
  intros W. destruct (parse_complete e W) as (_ & d & Hd & Q). unfold parse. specialize (Q (3 * List.length (render e) + 3) 0 []).
  rewrite app_nil_r in Q. rewrite Q; [|lia|exact I|lia].
  destruct (3 * List.length (render e) + 3 - d) as [|m] eqn:E; [lia|]. reflexivity.
Qed.
Lemma parse_inv ts e : parse ts = Some e -> ts = render e /\ wf e.
Proof.
  unfold parse. destruct (parse_at (3 * List.length ts + 3) 0 ts) as [[e' [|]]|] eqn:E; try discriminate.
  intros X. injection X as <-. apply (proj1 (proj2 (parse_sound _))) in E; [|lia].
  rewrite app_nil_r in E. tauto.
Qed.
Lemma parse_iff ts e : parse ts = Some e <-> (ts = render e /\ wf e).
Proof. split; [apply parse_inv|]. intros (-> & W). apply parse_render. auto. Qed.
Lemma render_inj e e' : wf e -> wf e' -> render e = render e' -> e = e'.
Proof. intros W W' E. apply parse_render in W, W'. rewrite E in W. congruence. Qed.

(** Writing "s << e" without parentheses. *)
Fixpoint gl (s e : expr) : expr :=
  match e with
  | Bin o l r => if prec o <=? 8 then Bin o (gl s l) r else Bin Shl s e
  | _ => Bin Shl s e
  end.
Lemma gl_render s e : render (gl s e) = render s ++ TOp Shl :: render e.
Proof.
  induction e; cbn [gl render]; auto. destruct (prec o <=? 8); cbn [render]; auto.
  rewrite IHe1, <- app_assoc. reflexivity.
Qed.
Lemma gl_level s e : level (gl s e) = Nat.min 8 (level e).
Proof.
  destruct e; cbn [gl level]; try reflexivity. destruct (Nat.leb_spec (prec o) 8); cbn [level prec]; lia.
Qed.
Lemma gl_wf s e : wf s -> 8 <= level s -> wf e -> wf (gl s e).
Proof.
  intros Ws Ls. induction e; intros W; cbn [gl]; try (cbn in *; intuition lia).
  cbn [wf] in W. destruct W as (W1 & W2 & L1 & L2). destruct (Nat.leb_spec (prec o) 8).
  - cbn [wf]. rewrite gl_level. repeat split; auto. lia.
  - cbn [wf level prec]. repeat split; auto; lia.
Qed.

Lemma numeric_type e : numeric e = true -> type_of e = Some Int.
Proof.
  induction e; cbn; intros X; try discriminate; auto.
  - rewrite IHe; auto.
  - rewrite IHe; auto.
  - apply andb_true_iff in X. destruct X. rewrite IHe1, IHe2 by auto. destruct o; auto.
Qed.
Lemma printable_level e : printable e = true -> wf e -> 8 <= level e.
Proof.
  destruct e as [| | | | | | | |o l r]; cbn; try lia. intros X _. destruct o; cbn in *; try lia; discriminate.
Qed.
Lemma gl_type s e : type_of s = Some Ostream -> numeric e = true ->
  (printable e = true -> type_of (gl s e) = Some Ostream) /\ (type_of (gl s e) = Some Ostream -> printable e = true).
Proof.
  intros Ts. induction e; intros N; try discriminate N;
    try (cbn [gl printable type_of]; rewrite Ts; pose proof (numeric_type _ N) as TN; cbn [type_of] in TN; rewrite ?TN; auto; fail).
  cbn in N. apply andb_true_iff in N. destruct N as [N1 N2]. destruct (IHe1 N1) as [P1 P2].
  pose proof (numeric_type _ N1) as T1. pose proof (numeric_type _ N2) as T2.
  cbn [gl printable]. destruct (Nat.leb_spec (prec o) 8) as [Hp|Hp].
  - destruct o; cbn in Hp; try lia; cbn [type_of prec]; rewrite T2; split; intros X; try discriminate X.
    + rewrite P1 by auto. auto.
    + apply P2. destruct (type_of (gl s e1)) as [[]|]; try discriminate X. auto.
    + destruct (type_of (gl s e1)) as [[]|]; discriminate X.
    + destruct (type_of (gl s e1)) as [[]|]; discriminate X.
    + destruct (type_of (gl s e1)) as [[]|]; discriminate X.
    + destruct (type_of (gl s e1)) as [[]|]; discriminate X.
    + destruct (type_of (gl s e1)) as [[]|]; discriminate X.
    + destruct (type_of (gl s e1)) as [[]|]; discriminate X.
    + destruct (type_of (gl s e1)) as [[]|]; discriminate X.
    + destruct (type_of (gl s e1)) as [[]|]; discriminate X.
    + destruct (type_of (gl s e1)) as [[]|]; discriminate X.
    + destruct (type_of (gl s e1)) as [[]|]; discriminate X.
    + destruct (type_of (gl s e1)) as [[]|]; discriminate X.
    + destruct (type_of (gl s e1)) as [[]|]; discriminate X.
  - assert (TB : type_of (Bin o e1 e2) = Some Int) by (apply numeric_type; cbn; rewrite N1, N2; auto).
    destruct o; cbn in Hp; try lia; split; auto; intros _; cbn [type_of]; rewrite Ts, T1, T2; auto.
Qed.

(** * Locating the << in front of a string literal *)
Lemma split_app {A} (a b c d : list A) x y : a ++ x :: b = c ++ y :: d ->
  (a = c /\ x = y /\ b = d) \/ (exists m, a = c ++ y :: m /\ d = m ++ x :: b) \/ (exists m, c = a ++ x :: m /\ b = m ++ y :: d).
Proof.
  revert c. induction a as [|h a IH]; intros [|k c] E; cbn in *.
  - injection E as -> ->. auto.
  - injection E as -> ->. right. right. exists c. auto.
  - injection E as -> <-. right. left. exists a. auto.
  - injection E as -> E. apply IH in E. destruct E as [(-> & -> & ->)|[(m & -> & ->)|(m & -> & ->)]]; auto.
    + right. left. exists m. auto.
    + right. right. exists m. auto.
Qed.

Lemma no_stream_type e : ~ In TStream (render e) -> type_of e <> Some Ostream.
Proof.
  induction e; cbn [render type_of]; intros N; try discriminate.
  - exfalso. apply N. left. auto.
  - apply IHe. intros X. apply N. right. apply in_or_app. auto.
  - destruct (type_of e); discriminate.
  - destruct (type_of e) as [[]|]; discriminate.
  - assert (N1 : type_of e1 <> Some Ostream) by (apply IHe1; intros X; apply N, in_or_app; auto).
    destruct o; destruct (type_of e1) as [[]|], (type_of e2) as [[]|]; try discriminate; congruence.
Qed.

Lemma text_type e s b : wf e -> 9 <= level e -> type_of e <> None -> render e = TStr s :: b -> type_of e = Some Text.
Proof.
  revert s b. induction e; intros s' b W L T E; cbn [render] in E; try discriminate E; auto.
  cbn [wf level] in *. destruct W as (W1 & W2 & L1 & L2).
  assert (T1 : type_of e1 = Some Text).
  { destruct (render e1) as [|t r1] eqn:R1; [pose proof (render_pos e1); rewrite R1 in *; cbn in *; lia|].
    cbn in E. injection E as -> E. apply IHe1 with (s := s') (b := r1); auto; [lia|].
    intros X. apply T. cbn [type_of]. rewrite X. destruct o; auto. }
  cbn [type_of] in *. rewrite T1 in *. destruct o; cbn in L; try lia; destruct (type_of e2) as [[]|]; auto; congruence.
Qed.

Lemma sub_none o l r : type_of (Bin o l r) <> None -> type_of l <> None /\ type_of r <> None.
Proof.
  cbn [type_of]. intros X. split; intros Y; apply X; rewrite Y; destruct o; auto; destruct (type_of l) as [[]|]; auto.
Qed.
Lemma shl_text l r : type_of (Bin Shl l r) <> None -> type_of r = Some Text -> type_of l = Some Ostream.
Proof. cbn [type_of]. intros X Y. rewrite Y in X. destruct (type_of l) as [[]|]; auto; congruence. Qed.

Lemma locate_none t s : forall a b, wf t -> type_of t <> None -> ~ In TStream (render t) ->
  render t <> a ++ TOp Shl :: TStr s :: b.
Proof.
  induction t; intros a b W T N E.
  1-5: cbn in E; apply (f_equal (@List.length token)) in E; rewrite app_length in E; cbn in E; lia.
  - cbn [render] in *. destruct a as [|h a]; cbn in E; [discriminate|]. injection E as _ E.
    assert (L : exists b', TStr s :: b = b' ++ [TRp]).
    { apply (split_app (render t) [] a (TStr s :: b)) in E.
      destruct E as [(_ & X & _)|[(m & _ & X)|(m & _ & X)]]; [discriminate|eauto|destruct m; discriminate]. }
    destruct L as (b' & L). destruct b' as [|x b']; cbn in L; [discriminate|]. injection L as <- ->.
    rewrite app_comm_cons, app_comm_cons, app_assoc in E. apply app_inj_tail in E. destruct E as [E _].
    refine (IHt a b' W T _ E). intros X. apply N. right. apply in_or_app. auto.
  - cbn [render wf type_of] in *. destruct a as [|h a]; cbn in E; [discriminate|]. injection E as _ E.
    refine (IHt a b (proj1 W) _ _ E); [intros X; apply T; rewrite X; auto|intros X; apply N; right; auto].
  - cbn [render wf type_of] in *. destruct a as [|h a]; cbn in E; [discriminate|]. injection E as _ E.
    refine (IHt a b (proj1 W) _ _ E); [intros X; apply T; rewrite X; auto|intros X; apply N; right; auto].
  - destruct (@sub_none _ _ _ T) as [T1 T2]. cbn [wf] in W. destruct W as (W1 & W2 & L1 & L2). cbn [render] in *.
    assert (N1 : ~ In TStream (render t1)) by (intros X; apply N, in_or_app; auto).
    assert (N2 : ~ In TStream (render t2)) by (intros X; apply N, in_or_app; right; right; auto).
    apply split_app in E. destruct E as [(E1 & E2 & E3)|[(m & E1 & E2)|(m & E1 & E2)]].
    + injection E2 as ->. cbn in L2. pose proof (@text_type t2 s b W2 ltac:(lia) T2 E3) as X.
      exact (no_stream_type t1 N1 (@shl_text _ _ T X)).
    + destruct m as [|x m]; cbn in E2; [discriminate|]. injection E2 as <- E2. exact (IHt1 a m W1 T1 N1 E1).
    + exact (IHt2 m b W2 T2 N2 E2).
Qed.

Lemma locate t s : forall a b, wf t -> type_of t <> None -> ~ In TStream a -> ~ In TStream b ->
  render t = (TStream :: a) ++ TOp Shl :: TStr s :: b ->
  exists u, render u = TStream :: a /\ wf u /\ type_of u = Some Ostream.
Proof.
  induction t; intros a b W T Na Nb E.
  1-5: cbn in E; apply (f_equal (@List.length token)) in E; cbn in E; rewrite app_length in E; cbn in E; lia.
  - discriminate E.
  - discriminate E.
  - discriminate E.
  - destruct (@sub_none _ _ _ T) as [T1 T2]. cbn [wf] in W. destruct W as (W1 & W2 & L1 & L2). cbn [render] in *.
    apply split_app in E. destruct E as [(E1 & E2 & E3)|[(m & E1 & E2)|(m & E1 & E2)]].
    + injection E2 as ->. exists t1. split; auto. split; auto. cbn in L2.
      pose proof (@text_type t2 s b W2 ltac:(lia) T2 E3) as X. exact (@shl_text _ _ T X).
    + destruct m as [|x m]; cbn in E2; [discriminate|]. injection E2 as <- ->.
      apply (IHt1 a m W1 T1 Na); auto. intros X. apply Nb. apply in_or_app. auto.
    + exfalso. refine (@locate_none t2 s m b W2 T2 _ E2).
      rewrite E2. intros X. apply in_app_or in X.
      destruct (render t1) as [|h r1] eqn:R1; [pose proof (render_pos t1); rewrite R1 in *; cbn in *; lia|].
      cbn in E1. injection E1 as <- ->. destruct X as [X|[X|[X|X]]]; try discriminate; auto.
      apply Na, in_or_app. right. right. auto.
Qed.
