(** Properties of calls whose arguments are elements of the container itself (C65): the theorems and their
    non-vacuity examples. *)
From Coq Require Import List Arith ZArith Lia Bool.
From Verif Require Import Base BaseProofs Mem AoA AoASpec PropAoA OwnRange.
From Verif Require BufferManip Array ArraySpec ArrayProofs ArrayProofs2 ArrayProofs3 PropArray.
From Verif Require AoALayout AoAProofs AoAProofs2 AoAProofs3 AoAProofs4 OwnRangeProofs2 OwnRangeProofs3 OwnRangeProofs4.
Import ListNotations.
Set Implicit Arguments.
Unset Strict Implicit.
Notation BMalloc := BufferManip.BMalloc.

(** [n] elements of [r] from position [l] on. *)
Definition range {V} (r : list V) (l n : nat) : list V := firstn n (skipn l r).
(** The capacities of the inner arrays after the history [h], C23 and C25. *)
Definition caps {V} (dflt : V) n0 cap0 h : list nat := cap_run dflt h (repeat [] n0) (repeat cap0 n0).
(** [n] more values fit inner array [i] of [s] values: [fits] without growing it, [stays] without
    reallocating m_values. *)
Definition fits (K : list nat) (i s n : nat) : Prop := s + n <= nth i K 0.
Definition stays {V} (a : aoa V unit) (K : list nat) (i s n : nat) : Prop :=
  fits K i s n \/ list_sum K + (2 * (s + n) - nth i K 0) <= valueCapacity a.
(** The outcome of reading through a reference into a freed block. For T which is not trivially copyable the
    reallocation may already have failed because it moves slots which hold no value, C26. *)
Definition dangling (tv : bool) {X} (m : outcome X) : Prop := m = Fault FDangling \/ (tv = false /\ m = Fault FMove).

Section Help.
Variable V : Type.
Variable chk tv : bool.
Notation fu := (fun _ : V => tt).
Notation arep := (@AoAProofs4.arep V unit tv true fu).
Notation aok := (@AoAProofs.aok V V unit (fun v : V => v) fu tv true false).
Notation rows := (list (list V * nat)).
Notation wids := (map (@AoALayout.wid V)).

Lemma driven_rows (dflt : V) n0 cap0 h M a :
  vec_run dflt h (repeat [] n0) = Some M -> driven chk tv dflt n0 cap0 h = Ok a ->
  exists L, aok a L /\ map fst L = M /\ wids L = caps dflt n0 cap0 h.
Proof.
  intros H E. pose proof (driven_rep chk tv dflt n0 cap0 h) as D. rewrite H in D.
  destruct D as [(a' & E' & R)|[T E']]; rewrite E in E'; [|discriminate]. injection E' as <-. exact R.
Qed.
Lemma nth_wid (A : rows) r g B : nth (length A) (wids (A ++ (r, g) :: B)) 0 = length r + g.
Proof. rewrite map_app. cbn [map]. rewrite app_nth2 by (rewrite map_length; lia). rewrite map_length, Nat.sub_diag. reflexivity. Qed.
Lemma stays_moves (a : aoa V unit) (A : rows) r g B n : stays a (wids (A ++ (r, g) :: B)) (length A) (length r) n ->
  OwnRangeProofs2.moves a A r g B n = false.
Proof.
  unfold stays, fits, OwnRangeProofs2.moves. rewrite nth_wid, <- AoAProofs4.total_sum. unfold valueCapacity, BufferManip.capacity.
  destruct (Nat.ltb_spec (length r + g) (length r + n)); auto. intros [S|S]; [lia|]. apply Nat.ltb_ge. lia.
Qed.
Lemma moves_stays (a : aoa V unit) (A : rows) r g B n : ~ stays a (wids (A ++ (r, g) :: B)) (length A) (length r) n ->
  OwnRangeProofs2.moves a A r g B n = true.
Proof.
  unfold stays, fits, OwnRangeProofs2.moves. rewrite nth_wid, <- AoAProofs4.total_sum. unfold valueCapacity, BufferManip.capacity. intros S.
  apply andb_true_iff. split; apply Nat.ltb_lt; lia.
Qed.
Lemma rows_nth (L : rows) k rk : nth_error (map fst L) k = Some rk -> exists gk, nth_error L k = Some (rk, gk).
Proof. rewrite nth_error_map. destruct (nth_error L k) as [[r g]|]; cbn; [|discriminate]. intros [= ->]. eauto. Qed.
Lemma nth_rows (L : rows) k rk gk : nth_error L k = Some (rk, gk) -> nth_error (map fst L) k = Some rk.
Proof. intros H. rewrite nth_error_map, H. reflexivity. Qed.
Lemma put_displays (a : aoa V unit) (A : rows) r g B r' g' : aok a (A ++ (r', g') :: B) ->
  displays chk a (put_at (map fst (A ++ (r, g) :: B)) (length A) r').
Proof. intros H. exact (rep_displays chk (AoAProofs4.rep_put r g H)). Qed.
Lemma offsets_sum (L : rows) k : AoALayout.total (firstn k L) = list_sum (firstn k (wids L)).
Proof. rewrite AoAProofs4.total_sum, firstn_map. reflexivity. Qed.
End Help.

(** C65. The state after any valid history. appendToArray( i, first, last ) where [first, last) are [n] elements of
    inner array [k] from position [l] on: if m_values is not reallocated, and inner array [k] is not behind an inner array [i]
    that has to grow, the call does what it does with copies. *)
Theorem C65_append : forall V (dflt : V) chk tv n0 cap0 h M a i k l n r rk,
  vec_run dflt h (repeat [] n0) = Some M -> driven chk tv dflt n0 cap0 h = Ok a ->
  nth_error M i = Some r -> nth_error M k = Some rk -> l + n <= length rk ->
  stays a (caps dflt n0 cap0 h) i (length r) n -> (k <= i \/ fits (caps dflt n0 cap0 h) i (length r) n) ->
  exists a', aoa_appendToArrayOwn chk tv true false BMalloc a i k l n = Ok a' /\
    aoa_appendToArray chk tv true false BMalloc a i (range rk l n) = Ok a' /\ displays chk a' (put_at M i (r ++ range rk l n)).
Proof.
  intros V dflt chk tv n0 cap0 h M a i k l n r rk H E Ni Nk Ln St Wh.
  destruct (driven_rows H E) as (L & R & <- & EK). set (K := caps dflt n0 cap0 h) in *. clearbody K. subst K. destruct (AoAProofs4.row_at Ni) as (A & g & B & -> & <-).
  destruct (rows_nth Nk) as [gk Nk']. assert (Wa : OwnRangeProofs3.where_append A g k n).
  { unfold OwnRangeProofs3.where_append. destruct Wh as [|F]; [lia|]. unfold fits in F. rewrite nth_wid in F. lia. }
  destruct (OwnRangeProofs3.appendOwn_ok chk R (stays_moves St) Nk' Ln Wa) as (a' & E1 & E2 & R').
  exists a'. split; [exact E1|]. split; [exact E2|]. eapply put_displays; exact R'.
Qed.
Print Assumptions C65_append.

Theorem C65_emplaceBack : forall V (dflt : V) chk tv n0 cap0 h M a i k l r rk v,
  vec_run dflt h (repeat [] n0) = Some M -> driven chk tv dflt n0 cap0 h = Ok a ->
  nth_error M i = Some r -> nth_error M k = Some rk -> nth_error rk l = Some v ->
  stays a (caps dflt n0 cap0 h) i (length r) 1 -> (k <= i \/ fits (caps dflt n0 cap0 h) i (length r) 1) ->
  exists a', aoa_emplaceBackOwn chk tv true false BMalloc a i k l = Ok a' /\
    aoa_emplaceBack chk tv true false BMalloc a i v = Ok a' /\ displays chk a' (put_at M i (r ++ [v])).
Proof.
  intros V dflt chk tv n0 cap0 h M a i k l r rk v H E Ni Nk Nl St Wh.
  destruct (driven_rows H E) as (L & R & <- & EK). set (K := caps dflt n0 cap0 h) in *. clearbody K. subst K. destruct (AoAProofs4.row_at Ni) as (A & g & B & -> & <-).
  destruct (rows_nth Nk) as [gk Nk']. assert (Wa : OwnRangeProofs3.where_append A g k 1).
  { unfold OwnRangeProofs3.where_append. destruct Wh as [|F]; [lia|]. unfold fits in F. rewrite nth_wid in F. lia. }
  destruct (OwnRangeProofs3.emplaceBackOwn_ok chk R (stays_moves St) Nk' Nl Wa) as (a' & E1 & E2 & R').
  exists a'. split; [exact E1|]. split; [exact E2|]. eapply put_displays; exact R'.
Qed.
Print Assumptions C65_emplaceBack.

(** Insertions at position [j]: elements of inner array [i] itself have to be in front of [j]. *)
Definition clear (K : list nat) (i j s k l n : nat) : Prop :=
  k < i \/ (k = i /\ l + n <= j) \/ (i < k /\ fits K i s n).
Theorem C65_insert : forall V (dflt : V) chk tv n0 cap0 h M a i j k l n r rk,
  vec_run dflt h (repeat [] n0) = Some M -> driven chk tv dflt n0 cap0 h = Ok a ->
  nth_error M i = Some r -> nth_error M k = Some rk -> l + n <= length rk -> j <= length r ->
  stays a (caps dflt n0 cap0 h) i (length r) n -> clear (caps dflt n0 cap0 h) i j (length r) k l n ->
  exists a', aoa_insertIntoArrayOwn chk tv true false BMalloc a i j k l n = Ok a' /\
    aoa_insertIntoArray chk tv true false BMalloc a i j (range rk l n) = Ok a' /\
    displays chk a' (put_at M i (firstn j r ++ range rk l n ++ skipn j r)).
Proof.
  intros V dflt chk tv n0 cap0 h M a i j k l n r rk H E Ni Nk Ln Hj St Wh.
  destruct (driven_rows H E) as (L & R & <- & EK). set (K := caps dflt n0 cap0 h) in *. clearbody K. subst K. destruct (AoAProofs4.row_at Ni) as (A & g & B & -> & <-).
  destruct (rows_nth Nk) as [gk Nk']. assert (Lj : length (firstn j r) = j) by (rewrite firstn_length; lia).
  assert (Wa : OwnRangeProofs3.where_insert A g k l n (length (firstn j r))).
  { rewrite Lj. unfold OwnRangeProofs3.where_insert. destruct Wh as [|[|[Gt F]]]; [lia|lia|]. unfold fits in F. rewrite nth_wid in F. lia. }
  apply stays_moves in St. rewrite <- (firstn_skipn j r) in R, St, Nk'.
  destruct (OwnRangeProofs3.insertOwn_ok chk R St Nk' Ln Wa) as (a' & E1 & E2 & R'). rewrite Lj in E1, E2.
  exists a'. split; [exact E1|]. split; [exact E2|]. eapply put_displays; exact R'.
Qed.
Print Assumptions C65_insert.

Theorem C65_emplace : forall V (dflt : V) chk tv n0 cap0 h M a i j k l r rk v,
  vec_run dflt h (repeat [] n0) = Some M -> driven chk tv dflt n0 cap0 h = Ok a ->
  nth_error M i = Some r -> nth_error M k = Some rk -> nth_error rk l = Some v -> j <= length r ->
  stays a (caps dflt n0 cap0 h) i (length r) 1 -> clear (caps dflt n0 cap0 h) i j (length r) k l 1 ->
  exists a', aoa_emplaceOwn chk tv true false BMalloc a i j k l = Ok a' /\
    aoa_emplace chk tv true false BMalloc a i j v = Ok a' /\ displays chk a' (put_at M i (firstn j r ++ v :: skipn j r)).
Proof.
  intros V dflt chk tv n0 cap0 h M a i j k l r rk v H E Ni Nk Nl Hj St Wh.
  destruct (driven_rows H E) as (L & R & <- & EK). set (K := caps dflt n0 cap0 h) in *. clearbody K. subst K. destruct (AoAProofs4.row_at Ni) as (A & g & B & -> & <-).
  destruct (rows_nth Nk) as [gk Nk']. assert (Lj : length (firstn j r) = j) by (rewrite firstn_length; lia).
  assert (Wa : OwnRangeProofs3.where_insert A g k l 1 (length (firstn j r))).
  { rewrite Lj. unfold OwnRangeProofs3.where_insert. destruct Wh as [|[|[Gt F]]]; [lia|lia|]. unfold fits in F. rewrite nth_wid in F. lia. }
  apply stays_moves in St. rewrite <- (firstn_skipn j r) in R, St, Nk'.
  destruct (OwnRangeProofs3.emplaceOwn_ok chk R St Nk' Nl Wa) as (a' & E1 & E2 & R'). rewrite Lj in E1, E2.
  exists a'. split; [exact E1|]. split; [exact E2|]. eapply put_displays; exact R'.
Qed.
Print Assumptions C65_emplace.

(** If m_values has to be reallocated all four read freed memory. *)
Theorem C65_reallocated : forall V (dflt : V) chk tv n0 cap0 h M a i j k l n r rk,
  vec_run dflt h (repeat [] n0) = Some M -> driven chk tv dflt n0 cap0 h = Ok a ->
  nth_error M i = Some r -> nth_error M k = Some rk -> l < length rk ->
  (~ stays a (caps dflt n0 cap0 h) i (length r) n ->
    dangling tv (aoa_appendToArrayOwn chk tv true false BMalloc a i k l n) /\
    dangling tv (aoa_insertIntoArrayOwn chk tv true false BMalloc a i j k l n)) /\
  (~ stays a (caps dflt n0 cap0 h) i (length r) 1 ->
    dangling tv (aoa_emplaceBackOwn chk tv true false BMalloc a i k l) /\
    dangling tv (aoa_emplaceOwn chk tv true false BMalloc a i j k l)).
Proof.
  intros V dflt chk tv n0 cap0 h M a i j k l n r rk H E Ni Nk Hl.
  destruct (driven_rows H E) as (L & R & <- & EK). set (K := caps dflt n0 cap0 h) in *. clearbody K. subst K. destruct (AoAProofs4.row_at Ni) as (A & g & B & -> & <-).
  destruct (rows_nth Nk) as [gk Nk']. assert (Hk : k < length (A ++ (r, g) :: B)) by (apply nth_error_Some; congruence).
  split; intros St; apply moves_stays in St; split.
  - exact (OwnRangeProofs3.appendOwn_lost chk l R St Hk).
  - exact (OwnRangeProofs3.insertOwn_lost chk j l R St Hk).
  - exact (OwnRangeProofs3.emplaceBackOwn_lost chk R St Nk' Hl).
  - exact (OwnRangeProofs3.emplaceOwn_lost chk j R St Nk' Hl).
Qed.
Print Assumptions C65_reallocated.

(** emplaceBack( i, a( k, l ) ) when inner array [i] is full, m_values large enough and i < k. By the time the
    argument is read the inner arrays behind [i] were shifted by length r + 2. If the old address of a( k, l ) is the new one of
    a( k', l' ), that value is appended; if it is the address of no element the call reads a destroyed object. *)
Definition addressOf (K : list nat) (k l : nat) : nat := list_sum (firstn k K) + l.
Theorem C65_shifted : forall V (dflt : V) chk tv n0 cap0 h M a i k l r rk,
  let K := caps dflt n0 cap0 h in
  vec_run dflt h (repeat [] n0) = Some M -> driven chk tv dflt n0 cap0 h = Ok a ->
  nth_error M i = Some r -> nth_error M k = Some rk -> l < length rk -> i < k ->
  nth i K 0 = length r -> list_sum K + (length r + 2) <= valueCapacity a ->
  (forall k' l' rk' v', nth_error M k' = Some rk' -> nth_error rk' l' = Some v' -> i < k' ->
     addressOf K k l = addressOf K k' l' + (length r + 2) ->
     exists a', aoa_emplaceBackOwn chk tv true false BMalloc a i k l = Ok a' /\ displays chk a' (put_at M i (r ++ [v']))) /\
  ((forall k' l' rk', nth_error M k' = Some rk' -> l' < length rk' -> i < k' -> addressOf K k l <> addressOf K k' l' + (length r + 2)) ->
   tv = false -> aoa_emplaceBackOwn chk tv true false BMalloc a i k l = Fault FRead).
Proof.
  intros V dflt chk tv n0 cap0 h M a i k l r rk K H E Ni Nk Hl Gt Full Room.
  destruct (driven_rows H E) as (L & R & <- & EK). fold K in EK. rewrite <- EK in *. clear K EK.
  destruct (AoAProofs4.row_at Ni) as (A & g & B & -> & <-).
  rewrite nth_wid in Full. assert (g = 0) by lia. subst g.
  assert (Mv : OwnRangeProofs2.moves a A r 0 B 1 = false). { apply stays_moves. right. rewrite nth_wid. lia. }
  destruct (rows_nth Nk) as [gk Nk']. unfold addressOf. split.
  - intros k' l' rk' v' Nk1 Nl1 Gt1 Eq. destruct (rows_nth Nk1) as [gk1 Nk1']. rewrite <- !offsets_sum in Eq.
    destruct (@OwnRangeProofs3.shifted_ok V unit chk tv true (fun _ : V => tt) a A r B k rk gk l k' rk' gk1 l' v' R Mv Nk' Hl Gt Nk1' Nl1 Gt1 ltac:(lia)) as (a' & E' & R').
    exists a'. split; [exact E'|]. eapply put_displays; exact R'.
  - intros No T. apply (@OwnRangeProofs3.shifted_gone V unit chk tv true (fun _ : V => tt) a A r B k rk gk l R Mv T Nk' Hl Gt).
    intros k' rk' gk' l' N1 L1 G1 Eq. apply (No k' l' rk' (nth_rows N1) L1 G1). rewrite <- !offsets_sum. lia.
Qed.
Print Assumptions C65_shifted.

(** appendArray( first, last ) and insertArray( i, first, last ) of elements of inner array [k]; insertArray shifts the inner
    arrays from [i] on, so [k] has to be less than [i]. *)
Theorem C65_appendArray : forall V (dflt : V) chk tv n0 cap0 h M a k l n rk,
  vec_run dflt h (repeat [] n0) = Some M -> driven chk tv dflt n0 cap0 h = Ok a ->
  nth_error M k = Some rk -> l + n <= length rk ->
  (list_sum (caps dflt n0 cap0 h) + 2 * n <= valueCapacity a ->
   exists a', appendArrayOwn chk tv true false BMalloc a k l n = Ok a' /\ displays chk a' (M ++ [range rk l n])) /\
  (valueCapacity a < list_sum (caps dflt n0 cap0 h) + 2 * n -> 0 < n -> dangling tv (appendArrayOwn chk tv true false BMalloc a k l n)).
Proof.
  intros V dflt chk tv n0 cap0 h M a k l n rk H E Nk Ln.
  destruct (driven_rows H E) as (L & R & <- & EK). set (K := caps dflt n0 cap0 h) in *. clearbody K. subst K. destruct (rows_nth Nk) as [gk Nk'].
  assert (Hk : k < length L) by (apply nth_error_Some; congruence).
  destruct (@AoAProofs2.push_ok V V unit (fun v => v) (fun _ => tt) chk tv true false a L R) as (a1 & P & R1).
  pose proof (OwnRangeProofs3.push_vals P) as Ev.
  rewrite (@OwnRangeProofs3.appendArrayOwn_append V unit chk tv true (fun _ => tt) a L k a1 l n R Hk P R1).
  assert (Nk1 : nth_error (L ++ [([], 0)]) k = Some (rk, gk)) by (rewrite nth_error_app1 by lia; exact Nk').
  assert (Tot : AoALayout.total (L ++ [([], 0)]) = list_sum (map (@AoALayout.wid V) L)).
  { rewrite AoALayout.total_app, <- AoAProofs4.total_sum. cbn. lia. }
  split.
  - intros St. assert (Mv : OwnRangeProofs2.moves a1 L [] 0 [] n = false).
    { unfold OwnRangeProofs2.moves. rewrite Ev, Tot. apply andb_false_iff. right. apply Nat.ltb_ge.
      unfold valueCapacity, BufferManip.capacity in St. cbn [length]. lia. }
    destruct (OwnRangeProofs3.appendOwn_ok chk R1 Mv Nk1 Ln) as (a' & E1 & _ & R'); [left; lia|].
    exists a'. split; [exact E1|]. pose proof (put_displays chk [] 0 R') as D.
    rewrite map_app in D. cbn [map fst] in D. rewrite AoAProofs4.put_mid in D by (rewrite map_length; reflexivity). exact D.
  - intros St Hn. assert (Mv : OwnRangeProofs2.moves a1 L [] 0 [] n = true).
    { unfold OwnRangeProofs2.moves. rewrite Ev, Tot. unfold valueCapacity, BufferManip.capacity in St. cbn [length].
      apply andb_true_iff. split; apply Nat.ltb_lt; lia. }
    apply (OwnRangeProofs3.appendOwn_lost chk l R1 Mv). rewrite app_length. lia.
Qed.
Print Assumptions C65_appendArray.

Theorem C65_insertArray : forall V (dflt : V) chk tv n0 cap0 h M a i k l n rk,
  vec_run dflt h (repeat [] n0) = Some M -> driven chk tv dflt n0 cap0 h = Ok a ->
  nth_error M k = Some rk -> l + n <= length rk -> k < i <= length M ->
  (list_sum (caps dflt n0 cap0 h) + 2 * n <= valueCapacity a ->
   exists a', insertArrayOwn chk tv true false BMalloc a i k l n = Ok a' /\ displays chk a' (firstn i M ++ range rk l n :: skipn i M)) /\
  (valueCapacity a < list_sum (caps dflt n0 cap0 h) + 2 * n -> 0 < n -> dangling tv (insertArrayOwn chk tv true false BMalloc a i k l n)).
Proof.
  intros V dflt chk tv n0 cap0 h M a i k l n rk H E Nk Ln Hi.
  destruct (driven_rows H E) as (L & R & <- & EK). set (K := caps dflt n0 cap0 h) in *. clearbody K. subst K. destruct (rows_nth Nk) as [gk Nk'].
  rewrite map_length in Hi. assert (Li : length (firstn i L) = i) by (rewrite firstn_length; lia).
  set (A := firstn i L) in *. set (B := skipn i L). assert (EL : L = A ++ B) by (symmetry; apply firstn_skipn).
  rewrite EL in R, Nk'. assert (Hk : k < length A) by lia. rewrite nth_error_app1 in Nk' by lia.
  destruct (@AoAProofs2.open_ok V V unit (fun v => v) (fun _ => tt) chk tv true false a A B i R (eq_sym Li)) as (a1 & P & R1). rewrite <- Li in P.
  pose proof (OwnRangeProofs3.open_vals P) as Ev.
  pose proof (@OwnRangeProofs3.insertArrayOwn_append V unit chk tv true (fun _ => tt) a A B k a1 l n R Hk P R1) as Eq.
  rewrite Li in Eq at 1. rewrite Eq.
  assert (Nk1 : nth_error (A ++ ([], 0) :: B) k = Some (rk, gk)) by (rewrite nth_error_app1 by lia; exact Nk').
  assert (Tot : AoALayout.total (A ++ ([], 0) :: B) = list_sum (map (@AoALayout.wid V) L)).
  { rewrite EL, <- AoAProofs4.total_sum, !AoALayout.total_app. cbn. lia. }
  split.
  - intros St. assert (Mv : OwnRangeProofs2.moves a1 A [] 0 B n = false).
    { unfold OwnRangeProofs2.moves. rewrite Ev, Tot. apply andb_false_iff. right. apply Nat.ltb_ge.
      unfold valueCapacity, BufferManip.capacity in St. cbn [length]. lia. }
    destruct (OwnRangeProofs3.appendOwn_ok chk R1 Mv Nk1 Ln) as (a' & E1 & _ & R'); [left; lia|].
    exists a'. split; [exact E1|]. pose proof (put_displays chk [] 0 R') as D.
    rewrite map_app in D. cbn [map fst] in D. rewrite AoAProofs4.put_mid in D by (rewrite map_length; reflexivity).
    unfold A, B in D. rewrite <- firstn_map, <- skipn_map in D. exact D.
  - intros St Hn. assert (Mv : OwnRangeProofs2.moves a1 A [] 0 B n = true).
    { unfold OwnRangeProofs2.moves. rewrite Ev, Tot. unfold valueCapacity, BufferManip.capacity in St. cbn [length].
      apply andb_true_iff. split; apply Nat.ltb_lt; lia. }
    apply (OwnRangeProofs3.appendOwn_lost chk l R1 Mv). rewrite app_length. lia.
Qed.
Print Assumptions C65_insertArray.

(** Array< T, 1 >::insert( begin() + p, begin() + l, begin() + l + n ) in the state after any valid history. With
    room to spare it inserts the range if it is in front of [p]; if it reaches over [p] it repeats the part in front; if it is
    behind [p] + n it inserts the range which starts n elements earlier; otherwise it reads a destroyed object. *)
Theorem C65_array_insert : forall V (dflt : V) chk triv h v p l n,
  ArraySpec.vectors dflt h [] = Some v -> p <= length v -> l + n <= length v ->
  exists a, Array.run (Array.vstep chk triv BMalloc [0] dflt) h (Array.new_array V BMalloc [0]) = Ok a /\
  (length v + n <= Array.capacity a ->
    let gives vs := exists a', array_insertOwn chk triv BMalloc a (Z.of_nat p) l n = Ok a' /\ ArraySpec.shows chk [0] a' (firstn p v ++ vs ++ skipn p v) in
    (l + n <= p -> gives (range v l n)) /\
    (l < p < l + n -> exists vs, length vs = n /\ (forall x, x < n -> nth_error vs x = nth_error v (l + x mod (p - l))) /\ gives vs) /\
    (p + n <= l -> gives (range v (l - n) n)) /\
    (p <= l < p + n -> triv = false -> array_insertOwn chk triv BMalloc a (Z.of_nat p) l n = Fault FRead)) /\
  (Array.capacity a < length v + n -> 0 < n -> array_insertOwn chk triv BMalloc a (Z.of_nat p) l n = Fault FDangling).
Proof.
  intros V dflt chk triv h v p l n H Hp Ln.
  destruct (@ArrayProofs3.vrun_ok V chk triv BMalloc dflt h _ [] v eq_refl
     (ArrayProofs2.new_ok V triv BMalloc ArrayProofs3.perm1 ArrayProofs3.nz1) H) as (a & E & A).
  exists a. split; [exact E|]. assert (Lp : length (firstn p v) = p) by (rewrite firstn_length; lia).
  assert (Ev : firstn p v ++ skipn p v = v) by apply firstn_skipn. split.
  - intros C gives. rewrite <- Ev in A.
    assert (C' : length (firstn p v ++ skipn p v) + n <= Array.capacity a) by (rewrite Ev; exact C).
    assert (Ln' : l + n <= length (firstn p v ++ skipn p v)) by (rewrite Ev; exact Ln).
    pose proof (OwnRangeProofs4.insertOwn_eq chk A C' Ln') as Q. rewrite Ev, Lp in Q.
    assert (G : forall vs, length vs = n -> array_insertOwn chk triv BMalloc a (Z.of_nat p) l n = Array.insert chk triv BMalloc a (Z.of_nat p) vs -> gives vs).
    { intros vs Lv Eq. unfold gives. rewrite Eq.
      assert (W : ArraySpec.vector dflt (Array.VInsert (Z.of_nat p) vs) v = Some (firstn p v ++ vs ++ skipn p v)).
      { cbn [ArraySpec.vector]. rewrite Nat2Z.id. destruct (Z.leb_spec 0 (Z.of_nat p)); [|lia].
        destruct (Z.leb_spec (Z.of_nat p) (Z.of_nat (length v))); [reflexivity|lia]. }
      rewrite Ev in A. destruct (@ArrayProofs3.vstep_ok V chk triv BMalloc dflt _ a v _ A W) as (a' & E' & A' & _); [left; reflexivity|].
      exists a'. split; [exact E'|]. apply ArrayProofs3.arr_shows with (triv := triv). exact A'. }
    pose proof (@OwnRangeProofs4.inserted_length V v p l n) as Lv. unfold OwnRangeProofs4.inserted in Q, Lv. split; [|split; [|split]].
    + intros Hl. destruct (Nat.leb_spec (l + n) p); [|lia]. apply G; [|exact Q]. apply Lv; auto.
    + intros Hl. destruct (Nat.leb_spec (l + n) p); [lia|]. destruct (Nat.ltb_spec l p); [|lia].
      exists (OwnRangeProofs4.cyc n (range v l (p - l))). split; [apply Lv; auto|]. split.
      * intros x Hx. rewrite OwnRangeProofs4.cyc_nth by exact Hx. unfold range. rewrite OwnRangeProofs4.nth_sub.
        rewrite firstn_length, skipn_length, Nat.min_l by lia. pose proof (Nat.mod_upper_bound x (p - l) ltac:(lia)) as Hm.
        destruct (Nat.ltb_spec (x mod (p - l)) (p - l)); [reflexivity|lia].
      * apply G; [|exact Q]. apply Lv; auto.
    + intros Hl. destruct (Nat.leb_spec (l + n) p); [assert (n = 0) by lia; subst n; apply G; [reflexivity|exact Q]|].
      destruct (Nat.ltb_spec l p); [lia|]. destruct (Nat.leb_spec (p + n) l); [|lia]. apply G; [|exact Q]. apply Lv; auto.
    + intros Hl T. destruct (Nat.leb_spec (l + n) p); [lia|]. destruct (Nat.ltb_spec l p); [lia|].
      destruct (Nat.leb_spec (p + n) l); [lia|]. exact (Q T).
  - intros C Hn. rewrite <- Ev in A. rewrite <- Lp. apply OwnRangeProofs4.insertOwn_dangles with (ys := skipn p v); auto. rewrite Ev. exact C.
Qed.
Print Assumptions C65_array_insert.

(** Everything the user can read. *)
Fixpoint mapM {X Y} (f : X -> outcome Y) (l : list X) : outcome (list Y) :=
  match l with [] => Ok [] | x :: l' => y <- f x ;; ys <- mapM f l' ;; Ok (y :: ys) end.
Definition all_rows (a : aoa nat unit) : outcome (list (list nat)) :=
  mapM (fun i => s <- sizeOfArray true a i ;; mapM (fun j => aoa_at true a i j) (seq 0 s)) (seq 0 (numArrays a)).
Definition hh : list (acall nat) := [AReserveValues 40; AResizeFromCapacities [2; 7]; AAppendTo 0 [1; 2]; AAppendTo 1 [3; 4; 5; 6; 7; 8; 9]].
Definition on_hh (tv : bool) (call : aoa nat unit -> outcome (aoa nat unit)) : outcome (list (list nat)) :=
  a <- driven true tv 0 0 0 hh ;; a' <- call a ;; all_rows a'.
Example C65_case :
  vec_run 0 hh (repeat [] 0) = Some [[1; 2]; [3; 4; 5; 6; 7; 8; 9]] /\ caps 0 0 0 hh = [2; 7] /\
  (a <- driven true false 0 0 0 hh ;; Ok (valueCapacity a)) = Ok 40 /\
  on_hh false (fun a => aoa_appendToArrayOwn true false true false BMalloc a 1 1 2 3) = Ok [[1; 2]; [3; 4; 5; 6; 7; 8; 9; 5; 6; 7]] /\
  on_hh false (fun a => aoa_emplaceBackOwn true false true false BMalloc a 0 0 1) = Ok [[1; 2; 2]; [3; 4; 5; 6; 7; 8; 9]] /\
  on_hh false (fun a => aoa_insertIntoArrayOwn true false true false BMalloc a 1 5 1 0 2) = Ok [[1; 2]; [3; 4; 5; 6; 7; 3; 4; 8; 9]] /\
  on_hh false (fun a => aoa_emplaceOwn true false true false BMalloc a 1 0 0 1) = Ok [[1; 2]; [2; 3; 4; 5; 6; 7; 8; 9]] /\
  on_hh false (fun a => aoa_emplaceBackOwn true false true false BMalloc a 0 1 2) = Fault FRead /\
  on_hh false (fun a => appendArrayOwn true false true false BMalloc a 0 0 2) = Ok [[1; 2]; [3; 4; 5; 6; 7; 8; 9]; [1; 2]] /\
  on_hh false (fun a => insertArrayOwn true false true false BMalloc a 1 0 0 2) = Ok [[1; 2]; [1; 2]; [3; 4; 5; 6; 7; 8; 9]] /\
  (a <- driven true false 0 1 2 [AAppendTo 0 [1; 2]] ;; aoa_emplaceBackOwn true false true false BMalloc a 0 0 0) = Fault FDangling /\
  (a <- driven true false 0 1 2 [AAppendTo 0 [1; 2]] ;; appendArrayOwn true false true false BMalloc a 0 0 1) = Fault FDangling.
Proof. vm_compute. repeat split. Qed.

(** That the argument is copied whenever m_values keeps its block is false. emplaceBack( 0, a( 1, 5 ) ) appends 4, not the 8
    of a( 1, 5 ); insertArray( 1, &a( 1, 5 ), &a( 1, 7 ) ) inserts 4, 5, not 8, 9. *)
Theorem C65_any_element_refuted :
  on_hh true (fun a => aoa_emplaceBack true true true false BMalloc a 0 8) = Ok [[1; 2; 8]; [3; 4; 5; 6; 7; 8; 9]] /\
  on_hh true (fun a => aoa_emplaceBackOwn true true true false BMalloc a 0 1 5) = Ok [[1; 2; 4]; [3; 4; 5; 6; 7; 8; 9]] /\
  on_hh true (fun a => insertArray true true true false BMalloc a 1 [8; 9]) = Ok [[1; 2]; [8; 9]; [3; 4; 5; 6; 7; 8; 9]] /\
  on_hh true (fun a => insertArrayOwn true true true false BMalloc a 1 1 5 2) = Ok [[1; 2]; [4; 5]; [3; 4; 5; 6; 7; 8; 9]] /\
  on_hh true (fun a => aoa_insertIntoArrayOwn true true true false BMalloc a 1 1 1 5 2) = Ok [[1; 2]; [3; 6; 7; 4; 5; 6; 7; 8; 9]].
Proof. vm_compute. repeat split. Qed.
Print Assumptions C65_any_element_refuted.

Definition hv : list (Array.vcall nat) := [Array.VReserve 20%Z; Array.VInsert 0%Z [10; 20; 30; 40; 50]].
Definition on_hv (triv : bool) (p l n : nat) : outcome (list nat) :=
  a <- Array.run (Array.vstep true triv BMalloc [0] 0) hv (Array.new_array nat BMalloc [0]) ;;
  a' <- array_insertOwn true triv BMalloc a (Z.of_nat p) l n ;;
  mapM (fun i => Array.at_ true [0] a' [Z.of_nat i]) (seq 0 (Array.size a')).
Example C65_array_case :
  on_hv false 3 0 2 = Ok [10; 20; 30; 10; 20; 40; 50] /\ on_hv false 2 1 3 = Ok [10; 20; 20; 20; 20; 30; 40; 50] /\
  on_hv false 3 1 4 = Ok [10; 20; 30; 20; 30; 20; 30; 40; 50] /\
  on_hv false 0 3 2 = Ok [20; 30; 10; 20; 30; 40; 50] /\ on_hv false 2 3 2 = Fault FRead.
Proof. vm_compute. repeat split. Qed.
