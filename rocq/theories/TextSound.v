(** What the parser accepts: soundness. *)
From Coq Require Import List Arith ZArith NArith Ascii Lia Bool.
From Verif Require Import Base BaseProofs Indexing IndexingSpec Text TextSpec TextMem.
Import ListNotations.
Set Implicit Arguments.
Unset Strict Implicit.

(** ** Characters *)
Lemma is_eq x y : is x y = true <-> x = y.
Proof. unfold is. apply Ascii.eqb_eq. Qed.
Lemma is_ne x y : is x y = false <-> x <> y.
Proof. unfold is. apply Ascii.eqb_neq. Qed.
Lemma is_refl x : is x x = true.
Proof. apply is_eq. reflexivity. Qed.

Lemma isspace_white c : isspace c = true <-> c = c_space \/ other_white c.
Proof.
  unfold isspace, other_white. rewrite orb_true_iff, andb_true_iff, !N.leb_le, N.eqb_eq. split.
  - intros [H|H]; [left|right; exact H]. rewrite <- (ascii_N_embedding c), H. reflexivity.
  - intros [->|H]; [left; reflexivity|right; exact H].
Qed.

(** ordinary characters: no meaning for the scan and no white space *)
Definition ordinary (c : ascii) : Prop := ~ special c /\ ~ other_white c.
Lemma special_iff c : special c <-> c = c_open \/ c = c_close \/ c = c_comma \/ c = c_space.
Proof.
  unfold special, c_open, c_close, c_comma, c_space. simpl. intuition.
Qed.
Lemma ordinary_is c : ordinary c ->
  is c c_open = false /\ is c c_close = false /\ is c c_comma = false /\ is c c_space = false /\ isspace c = false.
Proof.
  intros [S W]. rewrite special_iff in S. rewrite !is_ne. repeat split; try (intros ->; apply S; auto; fail).
  apply not_true_iff_false. rewrite isspace_white. intros [->|H]; auto. 
Qed.
Lemma kinds c : c = c_open \/ c = c_close \/ c = c_comma \/ c = c_space \/ other_white c \/ ordinary c.
Proof.
  destruct (ascii_dec c c_open); auto. destruct (ascii_dec c c_close); auto.
  destruct (ascii_dec c c_comma); auto. destruct (ascii_dec c c_space); auto.
  destruct (isspace c) eqn:E.
  - apply isspace_white in E. destruct E; tauto.
  - do 5 right. split.
    + rewrite special_iff. intuition.
    + intros W. apply not_true_iff_false in E. apply E. apply isspace_white. auto.
Qed.
Lemma token_ordinary t : token t <-> t <> [] /\ Forall ordinary t.
Proof. unfold token. rewrite Forall_forall. reflexivity. Qed.

(** ** expand and skip *)
Lemma expand_app a b : expand (a ++ b) = expand a ++ expand b.
Proof. unfold expand. apply flat_map_app. Qed.
Lemma expand_cons c s : expand (c :: s) =
  (if is c c_comma then [c_space] else if is c c_close then [c_space; c_close] else [c]) ++ expand s.
Proof. reflexivity. Qed.
Lemma expand_open s : expand (c_open :: s) = c_open :: expand s.
Proof. reflexivity. Qed.
Lemma expand_close s : expand (c_close :: s) = c_space :: c_close :: expand s.
Proof. reflexivity. Qed.
Lemma expand_comma s : expand (c_comma :: s) = c_space :: expand s.
Proof. reflexivity. Qed.
Lemma expand_ordinary t : Forall ordinary t -> expand t = t.
Proof.
  induction 1 as [|c t H F IH]; [reflexivity|]. destruct (ordinary_is H) as (_ & B & C & _).
  rewrite expand_cons, B, C, IH. reflexivity.
Qed.
Lemma skip_comma s : skip (expand (c_comma :: s)) = skip (expand s).
Proof. reflexivity. Qed.
Lemma skip_close s : skip (expand (c_close :: s)) = c_close :: expand s.
Proof. reflexivity. Qed.
Lemma skip_open s : skip (expand (c_open :: s)) = c_open :: expand s.
Proof. reflexivity. Qed.
Lemma skip_ordinary c s : ordinary c -> skip (expand (c :: s)) = c :: expand s.
Proof.
  intros H. destruct (ordinary_is H) as (_ & B & C & D & _). rewrite expand_cons, B, C. simpl. rewrite D. reflexivity.
Qed.

Lemma has_pair_tl x y c s : has_pair x y (c :: s) = false -> has_pair x y s = false.
Proof. destruct s; [reflexivity|]. cbn [has_pair]. rewrite orb_false_iff. tauto. Qed.
Lemma has_pair_hd x y s : has_pair x y (x :: y :: s) = true.
Proof. cbn [has_pair]. rewrite !is_refl. reflexivity. Qed.

Lemma aget_inv {A} (l : list A) i x d : aget l i = Ok x -> i < length l /\ x = nth i l d.
Proof.
  unfold aget. destruct (nth_error l i) eqn:E; [|discriminate]. injection 1 as ->.
  split; [apply nth_error_Some; congruence|]. symmetry. apply nth_error_nth. exact E.
Qed.
Lemma aset_inv {A} (l : list A) i x l' : aset l i x = Ok l' -> i < length l /\ l' = upd l i x.
Proof. unfold aset. destruct (Nat.ltb_spec i (length l)); [|discriminate]. injection 1 as <-. auto. Qed.
Lemma to_ix_inv z i : to_ix z = Ok i -> z = Z.of_nat i.
Proof. unfold to_ix. destruct (Z.ltb_spec z 0); [discriminate|]. injection 1 as <-. lia. Qed.
Lemma error_if_inv c u : error_if c = Ok u -> c = false.
Proof. destruct c; [discriminate|reflexivity]. Qed.

Ltac peel H :=
  repeat match type of H with
  | bind ?m _ = Ok _ => let E := fresh "E" in destruct m eqn:E; [cbn [bind] in H|discriminate|discriminate]
  | (let _ := _ in _) = _ => cbv zeta in H
  end.

(** One character. *)
Lemma char_open more q q' : scan_char more c_open q = Ok q' ->
  q' = mkScan (q_level q + 1) (q_dims q) (q_cur q) (q_set q) c_open.
Proof. unfold scan_char. rewrite is_refl. congruence. Qed.

Lemma char_other more c q q' : ordinary c -> scan_char more c q = Ok q' ->
  q' = mkScan (q_level q) (q_dims q) (q_cur q) (q_set q) c.
Proof. intros H. destruct (ordinary_is H) as (A & B & C & _). unfold scan_char. rewrite A, B, C. congruence. Qed.

Lemma char_close more q q' : scan_char more c_close q = Ok q' ->
  exists i, q_level q = Z.of_nat i /\ i < length (q_set q) /\ i < length (q_dims q) /\ i < length (q_cur q) /\
    nth i (q_dims q) 0 = nth i (q_cur q) 0 /\
    q' = mkScan (q_level q - 1) (q_dims q) (upd (q_cur q) i 1) (upd (q_set q) i true) c_close.
Proof.
  unfold scan_char. change (is c_close c_open) with false. rewrite is_refl. cbv beta iota zeta. intros H. peel H.
  injection H as <-. exists a. apply to_ix_inv in E. apply aset_inv in E0. destruct E0 as [L0 ->].
  apply aget_inv with (d := 0) in E1. destruct E1 as [L1 ->]. apply aget_inv with (d := 0) in E2. destruct E2 as [L2 ->].
  apply error_if_inv, negb_false_iff, Nat.eqb_eq in E3. apply aset_inv in E4. destruct E4 as [L4 ->].
  repeat split; auto.
Qed.

Lemma char_comma more q q' : scan_char more c_comma q = Ok q' ->
  q_last q <> c_open /\ q_last q <> c_comma /\
  exists i, q_level q = Z.of_nat i /\ i < length (q_set q) /\ i < length (q_cur q) /\
    q' = mkScan (q_level q)
           (if nth i (q_set q) false then q_dims q else upd (q_dims q) i (nth i (q_dims q) 0 + 1))
           (upd (q_cur q) i (nth i (q_cur q) 0 + 1)) (q_set q) c_comma.
Proof.
  unfold scan_char. change (is c_comma c_open) with false. change (is c_comma c_close) with false. rewrite is_refl.
  cbv beta iota zeta. intros H. peel H.
  apply error_if_inv, orb_false_iff in E. destruct E as [A B]. rewrite is_ne in A, B.
  apply to_ix_inv in E0. apply aget_inv with (d := false) in E1. destruct E1 as [L1 ->].
  apply aget_inv with (d := 0) in E3. destruct E3 as [L3 ->]. apply aset_inv in E4. destruct E4 as [L4 ->].
  injection H as <-. repeat split; auto. exists a0. repeat split; auto.
  destruct (nth a0 (q_set q) false).
  - injection E2 as <-. reflexivity.
  - destruct (aget (q_dims q) a0) as [d| |] eqn:E5; try discriminate. cbn [bind] in E2.
    apply aget_inv with (d := 0) in E5. destruct E5 as [L5 ->]. apply aset_inv in E2. destruct E2 as [_ ->]. reflexivity.
Qed.

(** Once set, an extent is final. *)
Lemma other_char more c q q' : is c c_open = false -> is c c_close = false -> is c c_comma = false ->
  scan_char more c q = Ok q' -> q' = mkScan (q_level q) (q_dims q) (q_cur q) (q_set q) c.
Proof. intros A B C. unfold scan_char. rewrite A, B, C. congruence. Qed.

Lemma char_cases more c q q' : scan_char more c q = Ok q' ->
  (c = c_open \/ c = c_close \/ c = c_comma \/ (is c c_open = false /\ is c c_close = false /\ is c c_comma = false)).
Proof.
  intros _. destruct (is c c_open) eqn:A; [apply is_eq in A; auto|].
  destruct (is c c_close) eqn:B; [apply is_eq in B; auto|].
  destruct (is c c_comma) eqn:C; [apply is_eq in C; auto|]. tauto.
Qed.

Section Sound.
Variable V : Type.
Variable conv : text -> option (V * text).
Variable dflt : V.
Hypothesis TP : takes_prefix conv.
(** [strict]: the text has no ",}"; otherwise the extraction takes whole words and rejects braces. *)
Variable strict : bool.
Hypothesis MODE : strict = false -> takes_word conv /\ rejects_brace conv.
Variable N : nat.
Variable D : list nat.
Hypothesis LD : length D = N.
Notation parse := (@parse V conv dflt).

(** The scan runs to the end from here. *)
Definition good (s : text) (q : scan_state) : Prop :=
  exists qf, scan s q = Ok qf /\ q_level qf = (-1)%Z /\ q_dims qf = D.
Definition clean (s : text) : Prop :=
  has_pair c_close c_open s = false /\ has_pair c_open c_close s = false /\
  (strict = true -> has_pair c_comma c_close s = false) /\
  Forall (fun c => c <> c_space /\ ~ other_white c) s.
(** lv braces are open *)
Definition inv (lv : nat) (q : scan_state) : Prop :=
  q_level q = (Z.of_nat lv - 1)%Z /\ length (q_dims q) = N /\ length (q_cur q) = N /\ length (q_set q) = N /\
  (forall k, nth k (q_set q) false = false -> nth k (q_dims q) 0 = nth k (q_cur q) 0) /\
  (forall k, lv <= k < N -> nth k (q_cur q) 0 = 1).
Definition at_text (lv : nat) (s : text) (q : scan_state) : Prop :=
  good s q /\ clean (q_last q :: s) /\ inv lv q.

Lemma good_cons c s q : good (c :: s) q -> exists q', scan_char (nonempty s) c q = Ok q' /\ good s q'.
Proof.
  intros (qf & E & L & Dd). cbn [scan] in E. destruct (scan_char (nonempty s) c q) as [q'| |]; try discriminate.
  exists q'. split; [reflexivity|]. exists qf. auto.
Qed.
Lemma good_nil q lv : good [] q -> inv lv q -> lv = 0.
Proof. intros (qf & E & L & _) (I & _). cbn in E. injection E as ->. lia. Qed.

Lemma clean_tl c s : clean (c :: s) -> clean s.
Proof.
  intros (A & B & C & F). repeat split; try (eapply has_pair_tl; eassumption).
  - intros S. eapply has_pair_tl. apply C. exact S.
  - inversion F; auto.
Qed.

Lemma set_final s : forall q k, good s q -> nth k (q_set q) false = true -> nth k (q_dims q) 0 = nth k D 0.
Proof.
  induction s as [|c s IH]; intros q k G S.
  - destruct G as (qf & E & _ & <-). cbn in E. injection E as ->. reflexivity.
  - destruct (good_cons G) as (q' & E & G').
    destruct (char_cases E) as [->|[->|[->|(A & B & C)]]].
    + apply char_open in E. subst q'. apply (IH _ k G'). exact S.
    + apply char_close in E. destruct E as (i & _ & L & _ & _ & _ & ->). apply (IH _ k G'). cbn.
      destruct (Nat.eq_dec i k); [subst; apply nth_upd_eq; auto|rewrite nth_upd_ne; auto].
    + apply char_comma in E. destruct E as (_ & _ & i & _ & L & _ & ->).
      specialize (IH _ k G'). cbn in IH. rewrite <- IH by exact S. destruct (nth i (q_set q) false) eqn:Q; [reflexivity|].
      rewrite nth_upd_ne; [reflexivity|]. intros ->. congruence.
    + apply other_char in E; auto. subst q'. apply (IH _ k G'). exact S.
Qed.

(** Too deep: the scan cannot come back. *)
Lemma deep s : forall q, good s q -> (Z.of_nat N <= q_level q)%Z -> length (q_set q) = N -> False.
Proof.
  induction s as [|c s IH]; intros q G L S.
  - destruct G as (qf & E & Lq & _). cbn in E. injection E as ->. lia.
  - destruct (good_cons G) as (q' & E & G').
    destruct (char_cases E) as [->|[->|[->|(A & B & C)]]].
    + apply char_open in E. subst q'. apply (IH _ G'); cbn; [lia|exact S].
    + apply char_close in E. destruct E as (i & Li & Ls & _). lia.
    + apply char_comma in E. destruct E as (_ & _ & i & Li & Ls & _). lia.
    + apply other_char in E; auto. subst q'. apply (IH _ G'); cbn; auto.
Qed.

(** Steps of [at_text]. *)
Lemma step_open lv s q : at_text lv (c_open :: s) q ->
  exists q', at_text (S lv) s q' /\ q_last q' = c_open /\ q_cur q' = q_cur q /\ lv < N.
Proof.
  intros (G & C & (L & A1 & A2 & A3 & A4 & A5)). destruct (good_cons G) as (q' & E & G').
  apply char_open in E. exists q'. 
  assert (B : lv < N).
  { destruct (Nat.lt_ge_cases lv N) as [|Q]; auto. exfalso. apply (deep G'); subst q'; cbn; [lia|exact A3]. }
  subst q'. split; [|repeat split; auto]. split; [exact G'|]. split; [exact (clean_tl C)|].
  unfold inv. cbn [q_level q_dims q_cur q_set]. repeat split; auto.
  - lia.
  - intros k Hk. apply A5. lia.
Qed.

Lemma step_close lv s q : at_text lv (c_close :: s) q ->
  exists q' l, lv = S l /\ l < N /\ nth l D 0 = nth l (q_cur q) 0 /\
    at_text l s q' /\ q_last q' = c_close /\ q_cur q' = upd (q_cur q) l 1.
Proof.
  intros (G & C & (L & A1 & A2 & A3 & A4 & A5)). destruct (good_cons G) as (q' & E & G').
  apply char_close in E. destruct E as (i & Li & B1 & B2 & B3 & B4 & ->).
  assert (lv = S i) as -> by lia. match type of G' with good _ ?x => exists x, i end. split; [reflexivity|]. split; [lia|].
  assert (F : nth i D 0 = nth i (q_cur q) 0).
  { rewrite <- B4. symmetry. apply (set_final (k := i)) in G'; [exact G'|]. cbn. apply nth_upd_eq. exact B1. }
  split; [exact F|]. split; [|split; reflexivity].
  split; [exact G'|]. split; [exact (clean_tl C)|]. unfold inv. cbn [q_level q_dims q_cur q_set]. rewrite !upd_length. repeat split; auto.
  - lia.
  - intros k Hk. destruct (Nat.eq_dec i k) as [->|Q].
    + rewrite nth_upd_eq in Hk by exact B1. discriminate.
    + rewrite nth_upd_ne in Hk by exact Q. rewrite nth_upd_ne by exact Q. apply A4. exact Hk.
  - intros k Hk. destruct (Nat.eq_dec i k) as [->|Q].
    + apply nth_upd_eq. lia.
    + rewrite nth_upd_ne by exact Q. apply A5. lia.
Qed.

Lemma step_comma lv s q : at_text lv (c_comma :: s) q ->
  exists q' l, lv = S l /\ l < N /\ q_last q <> c_open /\ q_last q <> c_comma /\
    at_text lv s q' /\ q_last q' = c_comma /\ q_cur q' = upd (q_cur q) l (nth l (q_cur q) 0 + 1).
Proof.
  intros (G & C & (L & A1 & A2 & A3 & A4 & A5)). destruct (good_cons G) as (q' & E & G').
  apply char_comma in E. destruct E as (N1 & N2 & i & Li & B1 & B2 & ->).
  assert (lv = S i) as -> by lia. match type of G' with good _ ?x => exists x, i end. split; [reflexivity|]. split; [lia|].
  split; [exact N1|]. split; [exact N2|]. split; [|split; reflexivity].
  split; [exact G'|]. split; [exact (clean_tl C)|]. unfold inv. cbn [q_level q_dims q_cur q_set]. rewrite upd_length. repeat split; auto.
  - destruct (nth i (q_set q) false); [exact A1|rewrite upd_length; exact A1].
  - intros k Hk. destruct (Nat.eq_dec i k) as [->|Q].
    + rewrite Hk. rewrite !nth_upd_eq by lia. f_equal. apply A4. exact Hk.
    + rewrite nth_upd_ne by exact Q. destruct (nth i (q_set q) false); [|rewrite nth_upd_ne by exact Q]; apply A4; exact Hk.
  - intros k Hk. rewrite nth_upd_ne by lia. apply A5. lia.
Qed.

Lemma step_ordinary lv c s q : ordinary c -> at_text lv (c :: s) q ->
  exists q', at_text lv s q' /\ q_last q' = c /\ q_cur q' = q_cur q.
Proof.
  intros O (G & C & (L & A1 & A2 & A3 & A4 & A5)). destruct (good_cons G) as (q' & E & G').
  apply (char_other O) in E. exists q'. subst q'. split; [|split; reflexivity].
  split; [exact G'|]. split; [exact (clean_tl C)|]. repeat split; auto.
Qed.

Lemma at_text_head lv c s q : at_text lv (c :: s) q -> c = c_open \/ c = c_close \/ c = c_comma \/ ordinary c.
Proof.
  intros (_ & (_ & _ & _ & F) & _). inversion F as [|? ? _ F']; subst. inversion F' as [|? ? [A B] _]; subst.
  destruct (kinds c) as [H|[H|[H|[H|[H|H]]]]]; auto; contradiction.
Qed.

(** ** Words *)
(** The word at the front of an expanded text. *)
Fixpoint front (s : text) : text :=
  match s with
  | c :: s' => if (is c c_comma || is c c_close)%bool then [] else c :: front s'
  | [] => []
  end.
Fixpoint behind (s : text) : text :=
  match s with
  | c :: s' => if (is c c_comma || is c c_close)%bool then s else behind s'
  | [] => []
  end.
Lemma front_behind s : s = front s ++ behind s.
Proof.
  induction s as [|c s IH]; [reflexivity|]. cbn [front behind]. destruct (is c c_comma || is c c_close)%bool; [reflexivity|].
  cbn. f_equal. exact IH.
Qed.
Lemma front_in s c : In c (front s) -> c <> c_comma /\ c <> c_close.
Proof.
  induction s as [|x s IH]; cbn [front]; [intros []|]. destruct (is x c_comma || is x c_close)%bool eqn:E; [intros []|].
  apply orb_false_iff in E. rewrite !is_ne in E. intros [<-|H]; [exact E|auto].
Qed.
Definition boundary (s : text) : Prop := match s with c :: _ => c = c_comma \/ c = c_close | [] => True end.
Lemma behind_boundary s : boundary (behind s).
Proof.
  induction s as [|x s IH]; cbn [behind]; [exact Logic.I|]. destruct (is x c_comma || is x c_close)%bool eqn:E; [|exact IH].
  apply orb_true_iff in E. rewrite !is_eq in E. exact E.
Qed.
Definition no_white (s : text) : Prop := Forall (fun c => c <> c_space /\ ~ other_white c) s.
Lemma no_white_isspace c : c <> c_space /\ ~ other_white c -> isspace c = false.
Proof. intros [A B]. apply not_true_iff_false. rewrite isspace_white. tauto. Qed.
Lemma word_expand s : no_white s -> word (expand s) = front s /\ after_word (expand s) = expand (behind s).
Proof.
  induction 1 as [|c s H F [IH1 IH2]]; [split; reflexivity|]. cbn [front behind]. rewrite expand_cons.
  destruct (is c c_comma) eqn:A.
  - apply is_eq in A. subst c. split; reflexivity.
  - destruct (is c c_close) eqn:B.
    + apply is_eq in B. subst c. split; reflexivity.
    + cbn [orb app word after_word]. rewrite (no_white_isspace H). rewrite IH1, IH2. split; reflexivity.
Qed.

Lemma extract_front c s v t : c <> c_comma -> c <> c_close -> no_white (c :: s) ->
  extract conv (skip (expand (c :: s))) = Some (v, t) ->
  exists u w', u <> [] /\ c :: s = u ++ w' ++ behind (c :: s) /\ front (c :: s) = u ++ w' /\ t = expand (w' ++ behind (c :: s)) /\
    (conv (u ++ w') = Some (v, w')).
Proof.
  intros A B F. pose proof (word_expand F) as [W1 W2].
  assert (Hc : expand (c :: s) = c :: expand s).
  { rewrite expand_cons. apply is_ne in A, B. rewrite A, B. reflexivity. }
  assert (S1 : skip (expand (c :: s)) = expand (c :: s)).
  { rewrite Hc. cbn [skip]. inversion F as [|? ? [X _] _]; subst. apply is_ne in X. rewrite X. reflexivity. }
  assert (S2 : skip_white (expand (c :: s)) = expand (c :: s)).
  { rewrite Hc. cbn [skip_white]. inversion F as [|? ? X _]; subst. rewrite (no_white_isspace X). reflexivity. }
  rewrite S1. unfold extract. rewrite S2, W1, W2. destruct (conv (front (c :: s))) as [[v' w']|] eqn:E; [|discriminate].
  injection 1 as <- <-. destruct (TP E) as (u & U & Q). exists u, w'. split; [exact U|].
  pose proof (front_behind (c :: s)) as FB. rewrite Q in FB, E. rewrite <- app_assoc in FB.
  split; [exact FB|]. split; [exact Q|]. split; [|exact E].
  rewrite expand_app. f_equal.
  assert (X : forall w, (forall c, In c w -> c <> c_comma /\ c <> c_close) -> expand w = w).
  { clear. induction w as [|c w IH]; intros H; [reflexivity|]. rewrite expand_cons.
    destruct (H c) as [A B]; [left; reflexivity|]. apply is_ne in A, B. rewrite A, B. cbn. f_equal. apply IH. intros x Hx. apply H. right. exact Hx. }
  symmetry. apply X. intros x Hx. apply (@front_in (c :: s)). rewrite Q. apply in_or_app. auto.
Qed.

(** Scanning over characters of a word at the innermost level: none of them is an opening brace. *)
Lemma step_word u : forall s q, (forall c, In c u -> c <> c_comma /\ c <> c_close) -> at_text N (u ++ s) q ->
  Forall ordinary u /\ exists q', at_text N s q' /\ q_cur q' = q_cur q /\ (u <> [] -> ordinary (q_last q')) /\ (u = [] -> q' = q).
Proof.
  induction u as [|c u IH]; intros s q H A.
  - split; [constructor|]. exists q. split; [exact A|]. split; [reflexivity|]. split; [intros X; exfalso; apply X; reflexivity|reflexivity].
  - destruct (H c) as [N1 N2]; [left; reflexivity|]. cbn [app] in A.
    destruct (at_text_head A) as [->|[->|[->|O]]]; try contradiction.
    + exfalso. destruct (step_open A) as (q' & _ & _ & _ & L). lia.
    + destruct (step_ordinary O A) as (q' & A' & L' & C').
      destruct (IH s q') as (F & q'' & A'' & C'' & O'' & Z''); [intros x Hx; apply H; right; exact Hx|exact A'|].
      split; [constructor; auto|]. exists q''. split; [exact A''|]. split; [congruence|]. split; [|discriminate].
      intros _. destruct u as [|c' u].
      * rewrite Z'' by reflexivity. rewrite L'. exact O.
      * apply O''. discriminate.
Qed.

Lemma at_text_white lv s q : at_text lv s q -> no_white s.
Proof. intros (_ & (_ & _ & _ & F) & _). inversion F; auto. Qed.

Definition gather_tok (toks : list (list Z -> text)) (idx : list Z) : text :=
  match idx with i :: r => nth (Z.to_nat i) toks (fun _ => []) r | [] => [] end.
Definition reads (ds : list nat) (tok : list Z -> text) (f : list Z -> V) : Prop :=
  forall r, valid_index ds r -> token (tok r) /\ conv (tok r) = Some (f r, []).

Definition tail_text (l : list text) : text := concat (map (fun x => c_comma :: x) l).
Lemma join_tail x l : join [c_comma] (x :: l) = x ++ tail_text l.
Proof.
  revert x; induction l as [|y l IH]; intros x; [unfold tail_text; cbn; rewrite app_nil_r; reflexivity|].
  change (join [c_comma] (x :: y :: l)) with (x ++ [c_comma] ++ join [c_comma] (y :: l)). rewrite IH. reflexivity.
Qed.

Lemma parse_nil t : parse [] t = match extract conv t with Some (v, t') => Some (fun _ => v, t') | None => None end.
Proof. reflexivity. Qed.

Lemma extract_nil v t : extract conv (skip (expand [])) = Some (v, t) -> False.
Proof.
  cbn [expand flat_map skip]. unfold extract. cbn [skip_white word]. destruct (conv []) as [[? ?]|] eqn:Ec; [|discriminate]. intros _.
  destruct (TP Ec) as (u & U & Z). destruct u; [congruence|discriminate].
Qed.

Lemma parse_cons d ds t : parse (d :: ds) t =
  match expect c_open t with
  | Ok t1 => match items (parse ds) d t1 with
             | Some (fs, t2) => match expect c_close (skip t2) with Ok t3 => Some (gather_fn dflt fs, t3) | _ => None end
             | None => None
             end
  | _ => None
  end.
Proof. reflexivity. Qed.

(** *** A row of values *)
Definition is_rest (s : text) : Prop := s = [] \/ exists c s', s = c :: s' /\ (c = c_comma \/ c = c_close).

Lemma skip_expect_close s u' : no_white s -> expect c_close (skip (expand s)) = Ok u' ->
  (hd_error s <> Some c_comma -> exists s1, s = c_close :: s1 /\ u' = expand s1) /\
  (forall s', s = c_comma :: s' -> hd_error s' <> Some c_comma -> exists s1, s' = c_close :: s1 /\ u' = expand s1).
Proof.
  assert (G : forall s, no_white s -> expect c_close (skip (expand s)) = Ok u' -> hd_error s <> Some c_comma -> exists s1, s = c_close :: s1 /\ u' = expand s1).
  { clear s. intros s F E Hd. destruct s as [|c s]; [discriminate|]. inversion F as [|? ? [X Y] _]; subst.
    destruct (kinds c) as [->|[->|[->|[->|[W|O]]]]]; try contradiction.
    - rewrite skip_open in E. discriminate.
    - rewrite skip_close in E. cbn in E. injection E as <-. eauto.
    - rewrite (skip_ordinary _ O) in E. cbn in E. destruct (ordinary_is O) as (_ & B & _). rewrite B in E. discriminate. }
  intros F E. split; [apply G; auto|]. intros s' -> Hd. rewrite skip_comma in E. inversion F; subst. apply G; auto.
Qed.

Lemma comma_last lv s q : at_text lv s q -> q_last q = c_comma -> hd_error s <> Some c_comma.
Proof.
  intros A L H. destruct s as [|c s]; [discriminate|]. injection H as ->.
  destruct (step_comma A) as (q' & l & _ & _ & _ & X & _). apply X. exact L.
Qed.

Lemma not_comma_close lv s q : at_text lv (c_close :: s) q -> q_last q = c_comma -> strict = true -> False.
Proof. intros (_ & (_ & _ & C & _) & _) L S. specialize (C S). rewrite L, has_pair_hd in C. discriminate. Qed.

Section Row.
Variable l : nat.
Hypothesis HN : N = S l.
Lemma Hl : l < N. Proof. lia. Qed.
Notation d := (nth l D 0).

(** j values read, c commas passed *)
Lemma row_rest : forall n j c s q u' fs t3,
  j + n = d -> 0 < j -> c < j -> (strict = false -> S c = j /\ is_rest s) ->
  at_text N s q -> nth l (q_cur q) 0 = c + 1 -> ordinary (q_last q) ->
  items (parse []) n (expand s) = Some (fs, u') ->
  expect c_close (skip u') = Ok t3 ->
  S c = j /\ length fs = n /\
  exists toks s1 q1, length toks = n /\ s = tail_text (map (fun t => t []) toks) ++ c_close :: s1 /\ t3 = expand s1 /\
    at_text l s1 q1 /\ q_last q1 = c_close /\ (forall k, k < l -> nth k (q_cur q1) 0 = nth k (q_cur q) 0) /\
    Forall2 (reads []) toks fs.
Proof.
  induction n as [|n IH]; intros j c s q u' fs t3 J J0 C M A Q O I X.
  - cbn in I. injection I as <- <-. 
    destruct (skip_expect_close (at_text_white A) X) as [X1 X2].
    destruct s as [|ch s]; [discriminate|].
    destruct (ascii_dec ch c_comma) as [->|Nc].
    + exfalso. destruct (step_comma A) as (q' & l' & E1 & E2 & E3 & E4 & A' & E5 & E6).
      assert (l' = l) by lia. subst l'.
      destruct (X2 s eq_refl (comma_last A' E5)) as (s1 & -> & ->).
      destruct (step_close A') as (q2 & l2 & F1 & F2 & F3 & A2 & F4 & F5). assert (l2 = l) by lia. subst l2.
      rewrite E6, nth_upd_eq in F3.
      2:{ destruct A as (_ & _ & (_ & _ & Lc & _)). lia. }
      destruct strict eqn:St.
      * eapply not_comma_close; eauto.
      * destruct (M eq_refl). lia.
    + destruct X1 as (s1 & E & ->); [intros H; injection H as ->; contradiction|]. injection E as -> ->.
      destruct (step_close A) as (q1 & l1 & F1 & F2 & F3 & A1 & F4 & F5). assert (l1 = l) by lia. subst l1.
      split; [lia|]. split; [reflexivity|]. exists [], s1, q1. split; [reflexivity|]. split; [reflexivity|]. split; [reflexivity|].
      split; [exact A1|]. split; [exact F4|]. split; [|constructor].
      intros k Hk. rewrite F5. apply nth_upd_ne. lia.
  - cbn [items] in I. rewrite parse_nil in I.
    destruct (extract conv (skip (expand s))) as [[v t1]|] eqn:E; [|discriminate].
    destruct (items (parse []) n t1) as [[fs' t2]|] eqn:I2; [|discriminate]. injection I as <- <-.
    (* reading at c0 :: s0, with the state qq there *)
    assert (R : forall c0 s0 qq cc, c0 <> c_comma -> c0 <> c_close -> at_text N (c0 :: s0) qq ->
      nth l (q_cur qq) 0 = cc + 1 -> (forall k, k < l -> nth k (q_cur qq) 0 = nth k (q_cur q) 0) -> cc < S j -> (strict = false -> S cc = S j) ->
      extract conv (skip (expand (c0 :: s0))) = Some (v, t1) ->
      S cc = S j /\ length ((fun _ : list Z => v) :: fs') = S n /\
      exists tk toks s1 q1, length toks = n /\ c0 :: s0 = tk ++ tail_text (map (fun t : list Z -> text => t []) toks) ++ c_close :: s1 /\ t3 = expand s1 /\
        at_text l s1 q1 /\ q_last q1 = c_close /\ (forall k, k < l -> nth k (q_cur q1) 0 = nth k (q_cur q) 0) /\
        Forall2 (reads []) toks fs' /\ token tk /\ conv tk = Some (v, [])).
    { intros c0 s0 qq cc N1 N2 Aq Qq Kq Cq Mq Eq.
      destruct (extract_front N1 N2 (at_text_white Aq) Eq) as (u & w' & U & Es & Ef & Et & Ec).
      assert (In1 : forall x, In x (u ++ w') -> x <> c_comma /\ x <> c_close) by (intros x Hx; apply (@front_in (c0 :: s0)); rewrite Ef; exact Hx).
      rewrite Es in Aq. destruct (@step_word u (w' ++ behind (c0 :: s0)) qq) as (Fu & q' & A' & C' & O' & _); auto.
      { intros x Hx. apply In1, in_or_app; auto. }
      destruct (IH (S j) cc (w' ++ behind (c0 :: s0)) q' t2 fs' t3) as (Hc & Lf & toks & s1 & q1 & Lt & Et2 & E3 & A1 & L1 & K1 & F2); auto; try lia.
      - intros Sf. split; [apply Mq; exact Sf|]. destruct (MODE Sf) as [TW _]. destruct (TW _ _ _ Ec) as [_ ->].
        cbn [app]. pose proof (behind_boundary (c0 :: s0)) as B. unfold is_rest. destruct (behind (c0 :: s0)) as [|x r]; auto. right. exists x, r. auto.
      - rewrite C'. exact Qq.
      - rewrite <- Et. exact I2.
      - split; [exact Hc|]. split; [cbn; congruence|].
        assert (w' = []) as ->.
        { destruct w' as [|x w']; auto. exfalso. destruct (In1 x) as [Y1 Y2]; [apply in_or_app; right; left; reflexivity|].
          cbn [app] in Et2. destruct toks as [|t0 toks]; cbn in Et2; injection Et2 as Z _; contradiction. }
        cbn [app] in *. rewrite app_nil_r in Ec.
        exists u, toks, s1, q1. split; [exact Lt|]. split; [rewrite Es; f_equal; exact Et2|]. split; [exact E3|]. split; [exact A1|]. split; [exact L1|].
        split; [|split; [exact F2|split; [apply token_ordinary; auto|exact Ec]]].
        intros k Hk. rewrite K1, C' by exact Hk. apply Kq. exact Hk. }
    destruct s as [|ch s].
    { exfalso. exact (extract_nil E). }
    destruct (at_text_head A) as [->|[->|[->|Oc]]].
    + exfalso. destruct (step_open A) as (_ & _ & _ & _ & L). lia.
    + exfalso. destruct (step_close A) as (q1 & l1 & F1 & F2 & F3 & _). assert (l1 = l) by lia. subst l1. lia.
    + destruct (step_comma A) as (q' & l' & E1 & E2 & E3 & E4 & A' & E5 & E6). assert (l' = l) by lia. subst l'.
      rewrite skip_comma in E.
      destruct s as [|c0 s0].
      { exfalso. exact (extract_nil E). }
      assert (c0 <> c_comma) as N1 by (intros ->; apply (comma_last A' E5); reflexivity).
      destruct (ascii_dec c0 c_close) as [->|N2].
      { exfalso. destruct strict eqn:St; [eapply not_comma_close; eauto|].
        destruct (MODE eq_refl) as [_ RB]. unfold extract in E. rewrite skip_close in E. cbn [skip_white] in E. change (isspace c_close) with false in E. cbv iota in E.
        cbn [word] in E. change (isspace c_close) with false in E. cbv iota in E. unfold c_close in E. rewrite RB in E. discriminate. }
      assert (Lc : l < length (q_cur q)) by (destruct A as (_ & _ & (_ & _ & Lc & _)); lia).
      destruct (R c0 s0 q' (c + 1)) as (H1 & H2 & tk & toks & s1 & q1 & G1 & G2 & G3 & G4 & G5 & G6 & G7 & G8 & G9); auto.
      * rewrite E6, nth_upd_eq by exact Lc. lia.
      * intros k Hk. rewrite E6. apply nth_upd_ne. lia.
      * lia.
      * intros Sf. destruct (M Sf). lia.
      * split; [lia|]. split; [exact H2|]. exists ((fun _ => tk) :: toks), s1, q1. split; [cbn; congruence|]. split.
        { cbn [map tail_text concat]. unfold tail_text. cbn [map concat]. rewrite G2. cbn [app]. f_equal. rewrite <- app_assoc. reflexivity. }
        split; [exact G3|]. split; [exact G4|]. split; [exact G5|]. split; [exact G6|]. constructor; [|exact G7].
        intros r Hr. inversion Hr; subst. auto.
    + exfalso. destruct (ordinary_is Oc) as (_ & B1 & B2 & _). apply is_ne in B1, B2.
      destruct (R ch s q c) as (H1 & _); auto.
      * intros Sf. destruct (M Sf) as [_ [Z|(x & r & Z & W)]]; [discriminate|]. injection Z as <- <-. tauto.
      * lia.
Qed.
End Row.

(** *** A nest *)
Lemma skip_parse_node ds s f t' : ds <> [] -> no_white s -> hd_error s <> Some c_comma ->
  parse ds (skip (expand s)) = Some (f, t') -> exists s', s = c_open :: s'.
Proof.
  intros Dn F Hd H. destruct ds as [|d ds]; [congruence|]. cbn [TextMem.parse] in H.
  destruct s as [|c s]; [discriminate|]. inversion F as [|? ? [X Y] _]; subst.
  destruct (kinds c) as [->|[->|[->|[->|[W|O]]]]]; try contradiction; eauto.
  - rewrite skip_close in H. discriminate.
  - rewrite (skip_ordinary _ O) in H. cbn [expect] in H. destruct (ordinary_is O) as (B & _). rewrite B in H. discriminate.
Qed.

Lemma reads_gather n ds toks fs : length toks = n -> Forall2 (reads ds) toks fs -> reads (n :: ds) (gather_tok toks) (gather_fn dflt fs).
Proof.
  intros L F r Hr. inversion Hr as [|i ? r' ? Hi Hr' E1 E2]; subst. cbn [gather_tok gather_fn].
  assert (B : Z.to_nat i < length toks) by lia. clear Hi Hr. revert B. generalize (Z.to_nat i) as k.
  induction F as [|t f toks fs H F IH]; intros k B; [cbn in B; lia|]. destruct k as [|k]; cbn [nth].
  - apply H. exact Hr'.
  - apply IH. cbn in B. lia.
Qed.
Lemma compact_gather ds toks : compact (length toks :: ds) (gather_tok toks) = c_open :: join [c_comma] (map (compact ds) toks) ++ [c_close].
Proof.
  unfold compact. cbn [nested]. cbn [app]. f_equal. f_equal. f_equal.
  transitivity (map (fun i => nested ["{"]%char [","]%char ["}"]%char ds (nth i toks (fun _ => []))) (seq 0 (length toks))).
  - apply map_ext. intros i. cbn [gather_tok]. rewrite Nat2Z.id.
    assert (X : forall ds (g h : list Z -> text) o m c, (forall r, g r = h r) -> nested o m c ds g = nested o m c ds h).
    { clear. induction ds as [|d ds IH]; intros g h o m c E; cbn [nested]; [apply E|]. f_equal. f_equal. f_equal.
      apply map_ext. intros i. apply IH. intros r. apply E. }
    apply X. reflexivity.
  - generalize (nested ["{"]%char [","]%char ["}"]%char ds) as g. clear. intros g.
    induction toks as [|t toks IH]; [reflexivity|]. cbn [length seq map]. f_equal. rewrite <- IH.
    rewrite <- seq_shift, map_map. reflexivity.
Qed.

Theorem nest_sound : forall ds l s q f t', l + length ds = N -> skipn l D = ds -> ds <> [] ->
  at_text l s q -> hd_error s <> Some c_comma -> parse ds (skip (expand s)) = Some (f, t') ->
  exists tok s1 q1, s = compact ds tok ++ s1 /\ t' = expand s1 /\ at_text l s1 q1 /\ q_last q1 = c_close /\
    (forall k, k < l -> nth k (q_cur q1) 0 = nth k (q_cur q) 0) /\ reads ds tok f /\ Forall (fun d => 0 < d) ds.
Proof.
  induction ds as [|d ds IH]; intros l s q f t' LN SD Dn A Hd H; [congruence|]. clear Dn.
  destruct (@skip_parse_node (d :: ds) s f t') as (s' & ->); [discriminate|exact (at_text_white A)|exact Hd|exact H|].
  rewrite skip_open in H. rewrite parse_cons in H. cbn [expect] in H. rewrite is_refl in H.
  destruct (items (parse ds) d (expand s')) as [[fs t2]|] eqn:I; [|discriminate].
  destruct (expect c_close (skip t2)) as [t3| |] eqn:X; try discriminate. injection H as <- <-.
  assert (Ed : nth l D 0 = d).
  { rewrite <- (firstn_skipn l D), SD. rewrite app_nth2; rewrite firstn_length, LD; [|lia]. replace (l - min l N) with 0 by (cbn in LN; lia). reflexivity. }
  assert (SD' : skipn (S l) D = ds).
  { replace (S l) with (1 + l) by lia. rewrite <- (skipn_skipn 1 l D) || idtac. 
    transitivity (skipn 1 (skipn l D)); [|rewrite SD; reflexivity].
    clear. revert D; induction l as [|l IH]; intros [|x D]; cbn; auto; try (destruct D; reflexivity). apply IH. }
  destruct (step_open A) as (q0 & A0 & L0 & C0 & Hl).
  assert (Cl : nth l (q_cur q) 0 = 1) by (destruct A as (_ & _ & (_ & _ & _ & _ & _ & A5)); apply A5; lia).
  destruct ds as [|d' ds].
  - (* values *)
    cbn [length] in LN. assert (HN : N = S l) by lia. rewrite <- HN in A0.
    destruct d as [|n].
    { exfalso. cbn in I. injection I as <- <-. destruct (skip_expect_close (at_text_white A0) X) as [X1 _].
      destruct X1 as (s1 & -> & _).
      { intros Z. destruct s' as [|c s']; [discriminate|]. injection Z as ->. destruct (step_comma A0) as (? & ? & _ & _ & Z & _). contradiction. }
      destruct (step_close A0) as (q1 & l1 & F1 & F2 & F3 & _). assert (l1 = l) by lia. subst l1. rewrite C0 in F3. lia. }
    cbn [items] in I. rewrite parse_nil in I. destruct (extract conv (skip (expand s'))) as [[v t1]|] eqn:E; [|discriminate].
    destruct (items (parse []) n t1) as [[fs' t4]|] eqn:I2; [|discriminate]. injection I as <- <-.
    destruct s' as [|c0 s0].
    { exfalso. exact (extract_nil E). }
    destruct (ascii_dec c0 c_comma) as [->|N1].
    { exfalso. destruct (step_comma A0) as (? & ? & _ & _ & Z & _). contradiction. }
    destruct (ascii_dec c0 c_close) as [->|N2].
    { exfalso. destruct A0 as (_ & (_ & Z & _) & _). rewrite L0, has_pair_hd in Z. discriminate. }
    destruct (extract_front N1 N2 (at_text_white A0) E) as (u & w' & U & Es & Ef & Et & Ec).
    assert (In1 : forall x, In x (u ++ w') -> x <> c_comma /\ x <> c_close) by (intros x Hx; apply (@front_in (c0 :: s0)); rewrite Ef; exact Hx).
    rewrite Es in A0. destruct (@step_word u (w' ++ behind (c0 :: s0)) q0) as (Fu & q' & A' & C' & O' & _); auto.
    { intros x Hx. apply In1, in_or_app; auto. }
    destruct (@row_rest l HN n 1 0 (w' ++ behind (c0 :: s0)) q' t4 fs' t3) as (Hc & Lf & toks & s1 & q1 & Lt & Et2 & E3 & A1 & L1 & K1 & F2); auto; try lia.
    + intros Sf. split; [reflexivity|]. destruct (MODE Sf) as [TW _]. destruct (TW _ _ _ Ec) as [_ ->].
      cbn [app]. pose proof (behind_boundary (c0 :: s0)) as B. unfold is_rest. destruct (behind (c0 :: s0)) as [|x r]; auto. right. exists x, r. auto.
    + rewrite C', C0. exact Cl.
    + rewrite <- Et. exact I2.
    + assert (w' = []) as ->.
      { destruct w' as [|x w']; auto. exfalso. destruct (In1 x) as [Y1 Y2]; [apply in_or_app; right; left; reflexivity|].
        cbn [app] in Et2. destruct toks as [|t0 toks]; cbn in Et2; injection Et2 as Z _; contradiction. }
      cbn [app] in *. rewrite app_nil_r in Ec.
      exists (gather_tok ((fun _ => u) :: toks)), s1, q1.
      split.
      { rewrite <- Lt. change (S (length toks)) with (length ((fun _ : list Z => u) :: toks)). rewrite compact_gather. cbn [map]. rewrite join_tail. cbn [app].
        f_equal. rewrite Es, Et2. rewrite <- !app_assoc. reflexivity. }
      split; [exact E3|]. split; [exact A1|]. split; [exact L1|]. split; [intros k Hk; rewrite K1, C', C0 by exact Hk; reflexivity|].
      split; [|constructor; [lia|constructor]].
      apply reads_gather; [cbn; congruence|]. constructor; [|exact F2].
      intros r Hr. inversion Hr; subst. split; [apply token_ordinary; auto|exact Ec].
  - (* subarrays *)
    specialize (IH (S l)).
    assert (G : forall n j s q fs t2, j + n = d -> at_text (S l) s q -> nth l (q_cur q) 0 = Nat.max 1 j ->
      (j = 0 -> q_last q = c_open) -> (0 < j -> q_last q = c_close) ->
      items (parse (d' :: ds)) n (expand s) = Some (fs, t2) -> expect c_close (skip t2) = Ok t3 ->
      exists toks s1 q1, length toks = n /\ t3 = expand s1 /\ at_text l s1 q1 /\ q_last q1 = c_close /\
        s = (match toks with [] => [] | t :: ts => if j =? 0 then join [c_comma] (map (compact (d' :: ds)) toks) else tail_text (map (compact (d' :: ds)) toks) end) ++ c_close :: s1 /\
        (forall k, k < l -> nth k (q_cur q1) 0 = nth k (q_cur q) 0) /\ Forall2 (reads (d' :: ds)) toks fs /\ (0 < n -> Forall (fun d => 0 < d) (d' :: ds)) /\ 0 < d).
    { clear s' A A0 I X q0 L0 C0 Cl Hd fs t2 q. 
      induction n as [|n IHn]; intros j s q fs t2 J A Cu L0 L1 I X.
      - cbn in I. injection I as <- <-. destruct (skip_expect_close (at_text_white A) X) as [X1 X2].
        destruct s as [|ch s]; [discriminate|]. destruct (ascii_dec ch c_comma) as [->|Nc].
        + exfalso. destruct (step_comma A) as (q' & l' & E1 & E2 & E3 & E4 & A' & E5 & E6). injection E1 as <-.
          destruct (X2 s eq_refl (comma_last A' E5)) as (s1 & -> & ->).
          destruct (step_close A') as (q2 & l2 & F1 & F2 & F3 & A2 & F4 & F5). injection F1 as <-.
          rewrite E6, nth_upd_eq in F3; [lia|]. destruct A as (_ & _ & (_ & _ & Lc & _)). lia.
        + destruct X1 as (s1 & E & ->); [intros Z; injection Z as ->; contradiction|]. injection E as -> ->.
          destruct (step_close A) as (q1 & l1 & F1 & F2 & F3 & A1 & F4 & F5). injection F1 as <-.
          exists [], s1, q1. repeat split; auto; try apply A1; try (constructor; fail); try lia.
          intros k Hk. rewrite F5. apply nth_upd_ne. lia.
      - cbn [items] in I. destruct (parse (d' :: ds) (skip (expand s))) as [[f t1]|] eqn:E; [|discriminate].
        destruct (items (parse (d' :: ds)) n t1) as [[fs' t4]|] eqn:I2; [|discriminate]. injection I as <- <-.
        (* the subarray starts at sx, with state qx *)
        assert (Y : exists sx qx, s = (if j =? 0 then sx else c_comma :: sx) /\ at_text (S l) sx qx /\ hd_error sx <> Some c_comma /\
          parse (d' :: ds) (skip (expand sx)) = Some (f, t1) /\ nth l (q_cur qx) 0 = S j /\ (forall k, k < l -> nth k (q_cur qx) 0 = nth k (q_cur q) 0)).
        { destruct j as [|j].
          - exists s, q. cbn [Nat.eqb]. repeat split; auto; try apply A. intros Z. destruct s as [|c s]; [discriminate|]. injection Z as ->.
            destruct (step_comma A) as (? & ? & _ & _ & Z & _). apply Z. auto.
          - cbn [Nat.eqb]. destruct s as [|c s].
            { exfalso. cbn in E. discriminate. }
            destruct (at_text_head A) as [->|[->|[->|Oc]]].
            + exfalso. destruct A as (_ & (Z & _) & _). rewrite (L1 ltac:(lia)), has_pair_hd in Z. discriminate.
            + exfalso. rewrite skip_close in E. cbn in E. discriminate.
            + destruct (step_comma A) as (q' & l' & E1 & E2 & E3 & E4 & A' & E5 & E6). injection E1 as <-.
              exists s, q'. split; [reflexivity|]. split; [exact A'|]. split; [exact (comma_last A' E5)|]. rewrite skip_comma in E. split; [exact E|].
              assert (Lc : l < length (q_cur q)) by (destruct A as (_ & _ & (_ & _ & Lc & _)); lia).
              split; [rewrite E6, nth_upd_eq by exact Lc; lia|]. intros k Hk. rewrite E6. apply nth_upd_ne. lia.
            + exfalso. rewrite (skip_ordinary _ Oc) in E. cbn [TextMem.parse expect] in E. destruct (ordinary_is Oc) as (B & _). rewrite B in E. discriminate. }
        destruct Y as (sx & qx & Es & Ax & Hx & Ex & Cx & Kx).
        destruct (IH sx qx f t1) as (tok & s2 & q2 & E1 & E2 & A2 & L2 & K2 & R2 & P2); auto; [cbn in LN |- *; lia|discriminate|].
        subst t1. destruct (IHn (S j) s2 q2 fs' t4) as (toks & s1 & q1 & H1 & H2 & H3 & H4 & H5 & H6 & H7 & H8 & H9); auto; try lia.
        { rewrite K2 by lia. rewrite Cx. lia. }
        exists (tok :: toks), s1, q1. split; [cbn; congruence|]. split; [exact H2|]. split; [exact H3|]. split; [exact H4|]. split.
        { rewrite Es, E1, H5. cbn [map].
          assert (Z : (match toks with [] => [] | _ :: _ => tail_text (map (compact (d' :: ds)) toks) end) = tail_text (map (compact (d' :: ds)) toks)) by (destruct toks; reflexivity).
          cbn [Nat.eqb]. rewrite Z. destruct (j =? 0).
          - rewrite join_tail, <- app_assoc. reflexivity.
          - unfold tail_text. cbn [map concat app]. rewrite <- !app_assoc. reflexivity. }
        split; [intros k Hk; rewrite H6, K2, Kx by lia; reflexivity|]. split; [constructor; auto|]. split; [auto|exact H9]. }
    destruct (G d 0 s' q0 fs t2) as (toks & s1 & q1 & H1 & H2 & H3 & H4 & H5 & H6 & H7 & H8 & H9); auto; try lia.
    { rewrite C0. rewrite Cl. reflexivity. }
    exists (gather_tok toks), s1, q1. split.
    { rewrite <- H1. rewrite compact_gather. cbn [app]. f_equal. rewrite H5. rewrite <- app_assoc. cbn [Nat.eqb].
      destruct toks; [cbn in H1; lia|]. reflexivity. }
    split; [exact H2|]. split; [exact H3|]. split; [exact H4|]. split; [intros k Hk; rewrite H6, C0 by exact Hk; reflexivity|].
    split; [apply reads_gather; auto|]. constructor; auto.
Qed.

End Sound.
