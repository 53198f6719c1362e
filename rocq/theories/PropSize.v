(** Property C52: human readable sizes. *)
From Coq Require Import List Arith NArith Lia Bool ZArith ZifyN.
From Verif Require Import Base SizeText.
Import ListNotations.
Set Implicit Arguments.
Local Open Scope N_scope.

(** Reading digits. *)
Definition reads (l : list char) (n : N) : Prop :=
  exists ds : list N, l = map Digit ds /\ Forall (fun d => d < 10) ds /\ fold_left (fun a d => a * 10 + d) ds 0 = n.

Lemma decimal_reads f : forall n, n < 10 ^ N.of_nat f -> reads (decimal f n) n.
Proof.
  induction f as [|f IH]; intros n H.
  - exists []. cbn in *. repeat split; auto. lia.
  - cbn [decimal]. destruct (N.ltb_spec n 10) as [L|L].
    + exists [n]. cbn. repeat split; auto.
    + rewrite Nnat.Nat2N.inj_succ, N.pow_succ_r' in H. destruct (IH (n / 10)) as (ds & E & F & V); [apply N.div_lt_upper_bound; lia|].
      exists (ds ++ [n mod 10]). rewrite E, map_app. split; [reflexivity|]. split.
      * apply Forall_app. split; [exact F|]. constructor; [apply N.mod_lt; lia|constructor].
      * rewrite fold_left_app, V. cbn [fold_left]. pose proof (N.div_mod' n 10). lia.
Qed.
Lemma decimal_length f n : (0 < f)%nat -> n < 10000 -> (length (decimal f n) <= 4)%nat.
Proof.
  intros F H. destruct f as [|f]; [lia|]. cbn [decimal]. destruct (N.ltb_spec n 10); [cbn; lia|]. rewrite app_length. cbn [length].
  destruct f as [|f]; [cbn; lia|]. cbn [decimal]. destruct (N.ltb_spec (n / 10) 10); [cbn; lia|]. rewrite app_length. cbn [length].
  destruct f as [|f]; [cbn; lia|]. cbn [decimal]. destruct (N.ltb_spec (n / 10 / 10) 10); [cbn; lia|]. rewrite app_length. cbn [length].
  destruct f as [|f]; [cbn; lia|]. cbn [decimal]. destruct (N.ltb_spec (n / 10 / 10 / 10) 10) as [|G]; [cbn; lia|]. exfalso.
  rewrite !N.div_div in G by lia. pose proof (N.div_lt_upper_bound n (10 * 10 * 10) 10). lia.
Qed.
Lemma decimal_long f n : (4 < f)%nat -> 10000 <= n -> (5 <= length (decimal f n))%nat.
Proof.
  intros F H. do 5 (destruct f as [|f]; [lia|]). cbn [decimal].
  assert (G : forall m, 10 <= m -> (m <? 10) = false) by (intros; apply N.ltb_ge; assumption).
  assert (D : forall a b m, 0 < a -> a * b <= m -> b <= m / a) by (intros; apply N.div_le_lower_bound; lia).
  rewrite (G n) by lia. rewrite (G (n / 10)) by (apply D; lia). rewrite (G (n / 10 / 10)) by (apply D; [lia|]; apply D; lia).
  rewrite (G (n / 10 / 10 / 10)) by (apply D; [lia|]; apply D; [lia|]; apply D; lia). rewrite !app_length. cbn [length].
  destruct (n / 10 / 10 / 10 / 10 <? 10); [cbn; lia|]. rewrite app_length. cbn. lia.
Qed.
Lemma tenths_near num shift : (Z.abs (2 * (Z.of_N (tenths num shift) * 2 ^ Z.of_N shift - 10 * Z.of_N num)) <= 2 ^ Z.of_N shift)%Z.
Proof.
  unfold tenths. assert (P : 0 < 2 ^ shift) by (apply N.neq_0_lt_0, N.pow_nonzero; lia).
  replace (2 ^ Z.of_N shift)%Z with (Z.of_N (2 ^ shift)) by (rewrite N2Z.inj_pow; reflexivity).
  pose proof (N.div_mod' (num * 10) (2 ^ shift)) as D. pose proof (N.mod_lt (num * 10) (2 ^ shift) ltac:(lia)) as M.
  set (q := num * 10 / 2 ^ shift) in *. set (r := (num * 10) mod 2 ^ shift) in *. set (p := 2 ^ shift) in *. clearbody p q r.
  destruct (N.ltb_spec (2 * r) p); [nia|]. destruct (N.ltb_spec p (2 * r)); [nia|]. destruct (N.even q); nia.
Qed.

(** C52: never more than 9 characters, so that the padding of setName always has width 9. *)
Lemma tenths_even num shift :
  (Z.abs (2 * (Z.of_N (tenths num shift) * 2 ^ Z.of_N shift - 10 * Z.of_N num)) = 2 ^ Z.of_N shift -> Z.even (Z.of_N (tenths num shift)) = true)%Z.
Proof.
  unfold tenths. replace (2 ^ Z.of_N shift)%Z with (Z.of_N (2 ^ shift)) by (rewrite N2Z.inj_pow; reflexivity).
  assert (P : 0 < 2 ^ shift) by (apply N.neq_0_lt_0, N.pow_nonzero; lia). set (p := 2 ^ shift) in *. clearbody p.
  pose proof (N.div_mod (num * 10) p ltac:(lia)) as D. pose proof (N.mod_lt (num * 10) p ltac:(lia)) as M.
  set (q := num * 10 / p) in *. set (r := (num * 10) mod p) in *. clearbody q r.
  destruct (N.ltb_spec (2 * r) p); [nia|]. destruct (N.ltb_spec p (2 * r)); [nia|].
  assert (EV : forall x, Z.even (Z.of_N x) = N.even x) by (intros []; reflexivity).
  destruct (N.even q) eqn:E; intros _; rewrite EV; [exact E|]. rewrite N.even_add, E. reflexivity.
Qed.
Theorem C52_fits : forall to_double bytes, (length (calculateSize to_double bytes) <= 9)%nat /\
  exists l, padded to_double bytes = Ok l /\ length l = 9%nat.
Proof.
  intros td bytes. assert (H : (length (calculateSize td bytes) <= 9)%nat) by (unfold calculateSize; rewrite firstn_length; lia). split; [exact H|].
  unfold padded, sub_ix. rewrite (proj2 (Nat.leb_le _ _) H). cbn [bind]. eexists. split; [reflexivity|]. rewrite app_length, repeat_length. lia.
Qed.
Print Assumptions C52_fits.

(** The text is a number of tenths of the largest unit (K, M, G as 0, 1, 2; the thousand being 1024) which is not larger
    than the size - KB below that -, it is the nearest one, and it is complete unless there are 10000 units or more. *)
Theorem C52_text : forall to_double bytes, to_double bytes = bytes -> bytes < 2 ^ 53 ->
  exists unit shift t, shift = 10 * (unit + 1) /\ unit <= 2 /\ (unit = 0 \/ 2 ^ shift <= bytes) /\ (unit = 2 \/ bytes < 2 ^ (shift + 10)) /\
    (Z.abs (2 * (Z.of_N t * 2 ^ Z.of_N shift - 10 * Z.of_N bytes)) <= 2 ^ Z.of_N shift)%Z /\
    (Z.abs (2 * (Z.of_N t * 2 ^ Z.of_N shift - 10 * Z.of_N bytes)) = 2 ^ Z.of_N shift -> Z.even (Z.of_N t) = true)%Z /\
    exists whole, reads whole (t / 10) /\
      let text := whole ++ [Dot; Digit (t mod 10); Space; Letter unit; B] in
      (t < 100000 -> calculateSize to_double bytes = text) /\
      (100000 <= t -> calculateSize to_double bytes <> text /\ calculateSize to_double bytes = firstn 9 text).
Proof.
  intros td bytes E H.
  assert (Sh : forall s, negb (N.shiftr bytes s =? 0) = (2 ^ s <=? bytes)).
  { intros s. rewrite N.shiftr_div_pow2. assert (P : 0 < 2 ^ s) by (apply N.neq_0_lt_0, N.pow_nonzero; lia). destruct (N.leb_spec (2 ^ s) bytes) as [L|L].
    - assert (1 <= bytes / 2 ^ s) by (apply N.div_le_lower_bound; lia). destruct (N.eqb_spec (bytes / 2 ^ s) 0); [lia|reflexivity].
    - rewrite N.div_small by exact L. reflexivity. }
  assert (Main : forall unit shift, shift <= 30 -> unit_of bytes = (unit, shift) ->
    (Z.abs (2 * (Z.of_N (tenths bytes shift) * 2 ^ Z.of_N shift - 10 * Z.of_N bytes)) <= 2 ^ Z.of_N shift)%Z /\
    (Z.abs (2 * (Z.of_N (tenths bytes shift) * 2 ^ Z.of_N shift - 10 * Z.of_N bytes)) = 2 ^ Z.of_N shift -> Z.even (Z.of_N (tenths bytes shift)) = true)%Z /\
    exists whole, reads whole (tenths bytes shift / 10) /\
      let text := whole ++ [Dot; Digit (tenths bytes shift mod 10); Space; Letter unit; B] in
      (tenths bytes shift < 100000 -> calculateSize td bytes = text) /\
      (100000 <= tenths bytes shift -> calculateSize td bytes <> text /\ calculateSize td bytes = firstn 9 text)).
  { intros unit shift Hs U. split; [apply tenths_near|]. split; [apply tenths_even|].
    assert (Bt : tenths bytes shift < 2 ^ 70).
    { pose proof (tenths_near bytes shift) as N1. replace (2 ^ Z.of_N shift)%Z with (Z.of_N (2 ^ shift)) in N1 by (rewrite N2Z.inj_pow; reflexivity).
      assert (P : 0 < 2 ^ shift) by (apply N.neq_0_lt_0, N.pow_nonzero; lia). change (2 ^ 53) with 9007199254740992 in H. change (2 ^ 70) with 1180591620717411303424. set (p := 2 ^ shift) in *. clearbody p. nia. }
    exists (decimal 70 (tenths bytes shift / 10)). split.
    { apply decimal_reads. apply N.lt_trans with (2 ^ 70); [|reflexivity]. pose proof (N.div_le_upper_bound (tenths bytes shift) 10 (tenths bytes shift)). lia. }
    unfold calculateSize, full_text. rewrite U, E. unfold print_tenths. rewrite <- !app_assoc. cbn [app].
    set (t := tenths bytes shift) in *. set (w := decimal 70 (t / 10)). cbv zeta. split.
    - intros Ht. assert ((length w <= 4)%nat) by (apply decimal_length; [lia|apply N.div_lt_upper_bound; lia]). apply firstn_all2. rewrite app_length. cbn [length]. lia.
    - intros Ht. split; [|reflexivity]. assert ((5 <= length w)%nat) by (apply decimal_long; [lia|apply N.div_le_lower_bound; lia]).
      intros F. apply (f_equal (@length char)) in F. rewrite firstn_length, app_length in F. cbn [length] in F. lia. }
  unfold unit_of in Main. rewrite !Sh in Main. destruct (N.leb_spec (2 ^ 30) bytes) as [L|L].
  - exists 2, 30, (tenths bytes 30). destruct (Main 2 30 ltac:(lia) eq_refl) as (M1 & M1' & M2). repeat split; auto; lia.
  - destruct (N.leb_spec (2 ^ 20) bytes) as [L2|L2].
    + exists 1, 20, (tenths bytes 20). destruct (Main 1 20 ltac:(lia) eq_refl) as (M1 & M1' & M2). repeat split; auto; lia.
    + exists 0, 10, (tenths bytes 10). destruct (Main 0 10 ltac:(lia) eq_refl) as (M1 & M1' & M2). repeat split; auto; lia.
Qed.
Print Assumptions C52_text.
(** 1.5 KB, 1024.0 KB and 10 TB without its unit *)
Example C52_case : calculateSize (fun n => n) 1536 = [Digit 1; Dot; Digit 5; Space; Letter 0; B] /\
  calculateSize (fun n => n) 1048575 = [Digit 1; Digit 0; Digit 2; Digit 4; Dot; Digit 0; Space; Letter 0; B] /\
  calculateSize (fun n => n) (10000 * 2 ^ 30) = [Digit 1; Digit 0; Digit 0; Digit 0; Digit 0; Dot; Digit 0; Space; Letter 2].
Proof. vm_compute. auto. Qed.
