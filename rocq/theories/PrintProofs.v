(** The printing functions produce the texts of PrintSpec.v, and these determine what was printed. *)
From Coq Require Import List Arith ZArith NArith Ascii String Lia Bool.
From Verif Require Import Base BaseProofs Mem TextSpec Text Print PrintSpec.
From Verif Require TextTop.
Import ListNotations.
Local Open Scope string_scope.
Local Open Scope list_scope.
Local Open Scope nat_scope.
Set Implicit Arguments.

(** * Loops which append *)
Lemma for_up_app (f : nat -> text -> outcome text) (g : nat -> text) n : forall i out,
  (forall k o, i <= k < i + n -> f k o = Ok (o ++ g k)) ->
  for_up n f i out = Ok (out ++ List.concat (map g (seq i n))).
Proof.
  induction n as [|n IH]; intros i out H; cbn [for_up seq map List.concat]; [rewrite app_nil_r; reflexivity|].
  rewrite H by lia. cbn [bind]. rewrite IH by (intros; apply H; lia). rewrite Nat.add_1_r, app_assoc. reflexivity.
Qed.

Lemma numbered_concat {A} (f : nat -> A -> text) (g : nat -> text) l : forall i,
  (forall k x, nth_error l k = Some x -> g (i + k) = f (i + k) x) ->
  List.concat (map g (seq i (List.length l))) = numbered f i l.
Proof.
  induction l as [|x l IH]; intros i H; cbn [List.length seq map List.concat numbered]; auto.
  rewrite (IH (S i)); [f_equal|].
  - specialize (H 0 x eq_refl). rewrite Nat.add_0_r in H. exact H.
  - intros k y N. specialize (H (S k) y N). rewrite <- Nat.add_succ_comm in H. exact H.
Qed.
Lemma numbered_ok {A} (f : nat -> A -> text) (g : nat -> text) (l : list A) :
  (forall k x, nth_error l k = Some x -> g k = f k x) -> List.concat (map g (seq 0 (List.length l))) = numbered f 0 l.
Proof. intros H. apply numbered_concat. exact H. Qed.

Lemma concat_nth {A} (f : A -> text) (g : nat -> text) (l : list A) :
  (forall k x, nth_error l k = Some x -> g k = f x) -> List.concat (map g (seq 0 (List.length l))) = List.concat (map f l).
Proof.
  intros H. rewrite (@numbered_ok A (fun _ => f) g l H). clear H. generalize 0. induction l as [|x l IH]; intros i; cbn; auto.
  f_equal. apply IH.
Qed.

(** * Sequences *)
Lemma join_tail (sep : text) l : forall x, join sep (x :: l) = x ++ List.concat (map (fun t => sep ++ t) l).
Proof.
  induction l as [|y l IH]; intros x; [cbn; rewrite app_nil_r; reflexivity|].
  change (join sep (x :: y :: l)) with (x ++ sep ++ join sep (y :: l)). rewrite IH. cbn [map List.concat]. rewrite !app_assoc. reflexivity.
Qed.
Lemma show_seq_text (ts : list text) at_ :
  (forall i t, nth_error ts i = Some t -> at_ i = Ok t) -> show_seq (List.length ts) at_ = Ok (seq_text ts).
Proof.
  intros H. unfold show_seq, seq_text. destruct ts as [|t ts].
  - reflexivity.
  - cbn [List.length Nat.ltb Nat.leb]. rewrite (H 0 t eq_refl). cbn [bind]. rewrite Nat.sub_succ, Nat.sub_0_r.
    rewrite (for_up_app _ (fun i => lit ", " ++ nth (i - 1) ts [])).
    + cbn [bind]. f_equal. rewrite join_tail. rewrite <- !app_assoc. do 2 f_equal. f_equal.
      rewrite <- seq_shift, map_map. rewrite <- (concat_nth (fun t => str ", " ++ t)) with (g := fun i => lit ", " ++ nth i ts []).
      * f_equal. apply map_ext. intros k. rewrite Nat.sub_succ, Nat.sub_0_r. reflexivity.
      * intros k x N. rewrite (nth_error_nth _ _ _ N). reflexivity.
    + intros k o Hk. destruct (nth_error ts (k - 1)) as [x|] eqn:N; [|apply nth_error_None in N; lia].
      rewrite (H k x) by (replace k with (S (k - 1)) by lia; exact N). cbn [bind]. rewrite (nth_error_nth _ _ _ N). reflexivity.
Qed.

(** * The texts determine the contents *)
Lemma token_cut a : forall b s1 s2 x y, token a \/ a = [] -> token b \/ b = [] -> special s1 \/ other_white s1 -> special s2 \/ other_white s2 ->
  a ++ s1 :: x = b ++ s2 :: y -> a = b /\ s1 = s2 /\ x = y.
Proof.
  assert (G : forall a b s1 s2 (x y : text), (forall c, In c a -> ~ special c /\ ~ other_white c) -> (forall c, In c b -> ~ special c /\ ~ other_white c) ->
    special s1 \/ other_white s1 -> special s2 \/ other_white s2 -> a ++ s1 :: x = b ++ s2 :: y -> a = b /\ s1 = s2 /\ x = y).
  { clear. intros a. induction a as [|c a IH]; intros [|d b] s1 s2 x y Ha Hb S1 S2 E; cbn in E; injection E as E1 E.
    - subst. auto.
    - subst d. destruct (Hb s1 (or_introl eq_refl)). tauto.
    - subst c. destruct (Ha s2 (or_introl eq_refl)). tauto.
    - subst d. destruct (IH b s1 s2 x y) as (-> & -> & ->); auto.
      + intros c' I. apply Ha. right. exact I.
      + intros c' I. apply Hb. right. exact I. }
  intros b s1 s2 x y Ha Hb. apply G.
  - destruct Ha as [[_ Ha]| ->]; [exact Ha|intros c []].
  - destruct Hb as [[_ Hb]| ->]; [exact Hb|intros c []].
Qed.
Lemma special_comma : special ","%char. Proof. cbn; auto. Qed.
Lemma special_space : special " "%char. Proof. cbn; auto. Qed.
Lemma special_close : special "}"%char. Proof. cbn; auto. Qed.
#[export] Hint Resolve special_comma special_space special_close : text.
Lemma token_first t s x y : token t -> special s \/ other_white s -> t ++ x = s :: y -> False.
Proof. intros [N H] S E. destruct t as [|c t]; [congruence|]. cbn in E. injection E as -> _. destruct (H s (or_introl eq_refl)). tauto. Qed.

Lemma join_cut l : forall l' x y, Forall token l -> Forall token l' ->
  join (str ", ") l ++ " "%char :: x = join (str ", ") l' ++ " "%char :: y -> l = l' /\ x = y.
Proof.
  assert (J : forall t l z, join (str ", ") (t :: l) ++ z = t ++ (match l with [] => z | _ => str ", " ++ join (str ", ") l ++ z end)).
  { clear. intros t [|u l] z; [reflexivity|]. cbn [join]. rewrite <- !app_assoc. reflexivity. }
  induction l as [|t l IH]; intros [|t' l'] x y F F' E.
  - cbn in E. injection E as ->. auto.
  - inversion F' as [|? ? T ?]; subst. rewrite J in E. cbn [join app] in E. symmetry in E. exfalso. eapply token_first; [exact T| |exact E]. auto with text.
  - inversion F as [|? ? T ?]; subst. rewrite J in E. cbn [join app] in E. exfalso. eapply token_first; [exact T| |exact E]. auto with text.
  - inversion F as [|? ? T Fl]; inversion F' as [|? ? T' Fl']; subst. rewrite !J in E.
    destruct l as [|u l], l' as [|u' l'].
    + apply token_cut in E; auto with text. destruct E as (-> & _ & ->). auto.
    + apply token_cut in E; auto with text. destruct E as (_ & E & _). discriminate.
    + apply token_cut in E; auto with text. destruct E as (_ & E & _). discriminate.
    + apply token_cut in E; auto with text. destruct E as (-> & _ & E). apply (f_equal (@tl ascii)) in E. cbn [tl] in E.
      change (join (str ", ") (u :: l) ++ " "%char :: x = join (str ", ") (u' :: l') ++ " "%char :: y) in E.
      apply IH in E; auto. destruct E as (-> & ->). auto.
Qed.
Lemma seq_cut l l' x y : Forall token l -> Forall token l' -> seq_text l ++ x = seq_text l' ++ y -> l = l' /\ x = y.
Proof.
  intros F F' E. unfold seq_text in E. rewrite <- !app_assoc in E. apply app_inv_head in E. cbn [str list_ascii_of_string app] in E.
  apply join_cut in E; auto. destruct E as (-> & E). injection E as ->. auto.
Qed.
Lemma set_cut l l' : Forall token l -> Forall token l' -> set_text l = set_text l' -> l = l'.
Proof.
  intros F F' E. destruct l as [|t l], l' as [|t' l']; cbn [set_text] in E; auto; try discriminate E.
  rewrite <- (app_nil_r (seq_text (t :: l))), <- (app_nil_r (seq_text (t' :: l'))) in E. apply seq_cut in E; tauto.
Qed.

Section Num.
Variable num : nat -> text.
Hypothesis num_token : forall i, token (num i).

Lemma items_cut l : forall l' x y, Forall token l -> Forall token l' ->
  List.concat (map (fun t => t ++ str ", ") l) ++ "}"%char :: x = List.concat (map (fun t => t ++ str ", ") l') ++ "}"%char :: y ->
  l = l' /\ x = y.
Proof.
  induction l as [|t l IH]; intros [|t' l'] x y F F' E; cbn [map List.concat] in E.
  - injection E as ->. auto.
  - inversion F' as [|? ? T ?]; subst. rewrite <- !app_assoc in E. cbn [app] in E. symmetry in E. exfalso. eapply token_first; [exact T| |exact E]. auto with text.
  - inversion F as [|? ? T ?]; subst. rewrite <- !app_assoc in E. cbn [app] in E. exfalso. eapply token_first; [exact T| |exact E]. auto with text.
  - inversion F as [|? ? T Fl]; inversion F' as [|? ? T' Fl']; subst. rewrite <- !app_assoc in E. cbn [str list_ascii_of_string app] in E.
    apply token_cut in E; auto with text. destruct E as (-> & _ & E). injection E as E. apply IH in E; auto. destruct E as (-> & ->). auto.
Qed.
Lemma arrays_cut M : forall M', Forall (Forall token) M -> Forall (Forall token) M' -> arrays_text num M = arrays_text num M' -> M = M'.
Proof.
  unfold arrays_text. intros M' F F' E. do 2 apply app_inv_head in E. revert E. generalize 0.
  revert M' F F'. induction M as [|r M IH]; intros [|r' M'] F F' i E; auto; cbn [numbered] in E.
  - exfalso. unfold array_line in E at 1. rewrite <- !app_assoc in E. cbn [str list_ascii_of_string app] in E. symmetry in E.
    eapply token_first; [apply num_token| |exact E]. auto with text.
  - exfalso. unfold array_line in E at 1. rewrite <- !app_assoc in E. cbn [str list_ascii_of_string app] in E.
    eapply token_first; [apply num_token| |exact E]. auto with text.
  - inversion F as [|? ? Fr FM]; inversion F' as [|? ? Fr' FM']; subst.
    unfold array_line in E at 1 3. rewrite <- !app_assoc in E. do 3 apply app_inv_head in E. cbn [str list_ascii_of_string app] in E.
    apply items_cut in E; auto. destruct E as (-> & E). apply app_inv_head in E. f_equal. eapply IH; eauto.
Qed.

Definition tokens2 (r : list (text * text)) : Prop := Forall token (map fst r) /\ Forall token (map snd r).
Lemma map_pair_inj {A B} (r : list (A * B)) : forall r', map fst r = map fst r' -> map snd r = map snd r' -> r = r'.
Proof.
  induction r as [|[a b] r IH]; intros [|[a' b'] r'] E1 E2; try discriminate; auto. cbn in E1, E2. injection E1 as -> E1. injection E2 as -> E2.
  f_equal. auto.
Qed.
Lemma matrix_cut M : forall M', Forall tokens2 M -> Forall tokens2 M' -> matrix_text num M = matrix_text num M' -> M = M'.
Proof.
  unfold matrix_text. intros M' F F' E. do 2 apply app_inv_head in E. revert E. generalize 0.
  revert M' F F'. induction M as [|r M IH]; intros [|r' M'] F F' i E; auto; cbn [numbered] in E; try discriminate E.
  inversion F as [|? ? [Fr Gr] FM]; inversion F' as [|? ? [Fr' Gr'] FM']; subst.
  unfold row_lines in E at 1 3. rewrite <- !app_assoc in E. do 5 apply app_inv_head in E.
  apply seq_cut in E; auto. destruct E as (E1 & E). do 3 apply app_inv_head in E. apply seq_cut in E; auto. destruct E as (E2 & E).
  apply app_inv_head in E. f_equal; [apply map_pair_inj; auto|]. eapply IH; eauto.
Qed.
End Num.
