(** Programs over several arrays of arrays, for any value type which describes their rows. *)
From Coq Require Import List Arith ZArith Lia Bool.
From Verif Require Import Base BaseProofs Mem MemProofs BufferManip BufferManipProofs AoA AoALayout AoAProofs AoACopy AoACopyProofs Values ValuesSpec
  ValuesProofs2 AoAValuesSpec.
From Verif Require AoAProofs2.
Import ListNotations.
Set Implicit Arguments.
Unset Strict Implicit.

Section G.
Variable P V W : Type.
Variable fv : P -> V.
Variable fw : P -> W.
Variable chk tv tw dual : bool.
Notation aoa := (aoa V W).
Notation rows := (list (list P * nat)).
Notation aok := (@aok P V W fv fw tv tw dual).
Notation pok := (@pok P V W fv fw tv tw dual).
Variable E F C : Type.
Variable e0 : E.
Variable step : F -> aoa * E -> outcome (aoa * E).
Variable den : rows -> E -> C -> Prop.
Variable fresh : C.
Variable stepC : F -> C -> option C.
Variable revive : F -> option C.
Variable room : C -> C -> bool.
Variable intact : C -> bool.
Variable allowed : F -> option C -> Prop.
Hypothesis Hfresh : den [] e0 fresh.
Hypothesis Hstep : forall f a x c c' L, aok a L -> den L x c -> allowed f (Some c) -> stepC f c = Some c' ->
  exists a' x' L', step f (a, x) = Ok (a', x') /\ aok a' L' /\ den L' x' c'.
Hypothesis Hrevive : forall f c', revive f = Some c' -> allowed f None ->
  exists a' x' L', step f (null_aoa V W BMalloc, e0) = Ok (a', x') /\ aok a' L' /\ den L' x' c'.
Hypothesis Hroom : forall L0 x0 c0 L x c cap, den L0 x0 c0 -> den L x c -> room c0 c = true -> total L0 <= cap ->
  roomy tv cap (stale L0 L) (total L) = true /\ (dual = true -> roomy tw cap (stale L0 L) (total L) = true).
Hypothesis Hintact : forall L x c, den L x c -> intact c = true -> (allt tv tw dual || empty_rows L)%bool = true.

Notation cl := (aoa_class chk tv tw dual e0 step).
Definition isv (v : nat * E * (buf nat * buf nat * buf V * buf W)) (o : option C) : Prop :=
  match o with
  | Some c => exists L, aok (fst (apack v)) L /\ den L (snd (apack v)) c
  | None => v = (0, e0, ([], [], [], []))
  end.
Lemma aunpack_isv a x c L : aok a L -> den L x c -> isv (aunpack (a, x)) (Some c).
Proof. intros A D. exists L. destruct a as [n o s b w]. cbn. auto. Qed.
Lemma isv_pok v o : isv v o -> exists L0, pok (fst (apack v)) L0.
Proof.
  destruct o as [c|]; cbn; intros H.
  - destruct H as (L & A & _). exists L. apply aok_pok. exact A.
  - subst v. exists []. exact (@null_pok P V W fv fw tv tw dual).
Qed.

Lemma class_program p e : nullable_admitted fresh stepC revive room intact allowed p ->
  nullable_program fresh stepC revive room intact p = Some e ->
  exists st, executes cl p (mkState [] []) = Ok st /\ final cl (@null_value C) isv st e.
Proof.
  intros Al H. eapply program_ok_if with (13 := H) (12 := Al).
  - reflexivity.
  - intros [[[[|] [|]] [|]] [|]] N; try discriminate. reflexivity.
  - reflexivity.
  - cbn [members initial aoa_class]. assert (Nw : oks (new_aoa V W chk tv tw dual BMalloc 0 0) (fun a => aok a [] /\ numArrays a = 0)).
    { unfold new_aoa. pose proof (@AoAProofs2.resize_ok P V W fv fw chk tv tw dual (null_aoa V W BMalloc) [] 0 0 (@null_pok P V W fv fw tv tw dual)) as R.
      simpl nogap in R. rewrite orb_true_r in R. destruct R as [(a & -> & A)|[R _]]; [|discriminate]. exists a. split; [reflexivity|]. cbn in A. split; [exact A|]. apply A. }
    destruct Nw as (a & -> & A & N). exists []. destruct a as [n o s b w]. cbn in *. subst n. split; [exact A|exact Hfresh].
  - reflexivity.
  - intros f v x x' Rv Af Hx. unfold call_on in Hx. destruct x as [c|].
    + destruct (stepC f c) as [c'|] eqn:Es; [|discriminate]. injection Hx as <-. destruct Rv as (L & A & D). cbn [call aoa_class]. destruct (apack v) as [a y]. cbn [fst snd] in A, D.
      destruct (Hstep A D Af Es) as (a' & y' & L' & -> & A' & D'). cbn [bind]. eexists. split; [reflexivity|]. eapply aunpack_isv; eassumption.
    + destruct (revive f) as [c'|] eqn:Es; [|discriminate]. injection Hx as <-. cbn in Rv. subst v. cbn [call aoa_class].
      destruct (Hrevive Es Af) as (a' & y' & L' & Ea & A' & D'). change (apack (0, e0, ([], [], [], []))) with (null_aoa V W BMalloc, e0). rewrite Ea. cbn [bind]. eexists. split; [reflexivity|]. eapply aunpack_isv; eassumption.
  - intros v x w y z Rv Rw Hz. cbn [assign_copy aoa_class]. unfold assign_on in Hz. destruct y as [c|]; [|destruct x; discriminate]. assert (z = Some c) by (destruct x as [c0|]; [destruct (room c0 c); [|discriminate]|]; congruence). subst z.
    destruct Rw as (L & A & D).
    assert (exists L0, pok (fst (apack v)) L0 /\ roomy tv (length (vals (fst (apack v)))) (stale L0 L) (total L) = true /\ (dual = true -> roomy tw (length (ents (fst (apack v)))) (stale L0 L) (total L) = true)) as (L0 & Pk & R1 & R2).
    { destruct x as [c0|].
      - destruct (room c0 c) eqn:Er; [|discriminate]. destruct Rv as (L0 & A0 & D0). exists L0. split; [apply aok_pok; exact A0|]. destruct A0 as [_ [Va Wa]].
        split; [eapply (Hroom D0 D Er); apply (lay_cap Va)|]. intros Hd. eapply (Hroom D0 D Er); auto. apply (lay_cap (Wa Hd)).
      - cbn in Rv. subst v. exists []. split; [exact (@null_pok P V W fv fw tv tw dual)|]. unfold roomy, stale. cbn. rewrite orb_true_r. auto. }
    pose proof (setEqualTo_ok chk Pk A) as S. rewrite R1 in S. assert (Hd : (negb dual || roomy tw (length (ents (fst (apack v)))) (stale L0 L) (total L))%bool = true) by (destruct dual; cbn; auto).
    rewrite Hd in S. destruct S as (a' & -> & A'). cbn [bind]. eexists. split; [reflexivity|]. eapply aunpack_isv; eassumption.
  - intros v x z Rv Hz. cbn [assign_self aoa_class]. unfold self_on in Hz. destruct x as [c|]; [|discriminate]. destruct (intact c) eqn:Ei; [|discriminate]. injection Hz as <-.
    destruct Rv as (L & A & D). pose proof (setEqualToSelf_ok chk A) as S. rewrite (Hintact D Ei) in S. destruct S as (a' & -> & A'). cbn [bind]. eexists. split; [reflexivity|]. eapply aunpack_isv; eassumption.
  - intros m s x _. reflexivity.
  - intros v x Rv. destruct (isv_pok Rv) as (L0 & Pk). cbn [destructor aoa_class]. unfold aoa_dtor. destruct (AoAProofs2.free_ok chk Pk) as (a' & -> & _). reflexivity.
  - intros m [c|] Hm; [|reflexivity]. exfalso. destruct Hm as (L & [(_ & O & _) _] & _). destruct m as [n x]. cbn in O. apply holds_cap in O. rewrite offsets_length in O. cbn in O. lia.
Qed.
Lemma class_no_leak p st : executes cl p (mkState [] []) = Ok st -> Permutation.Permutation (live st) (owned st).
Proof.
  intros H. assert (N : forall s, is_null cl s = true -> s = nothing cl) by (intros [[[[|] [|]] [|]] [|]] N; try discriminate; reflexivity).
  exact (@no_leak _ _ _ cl eq_refl N p st (or_introl eq_refl) H).
Qed.
End G.

(** * The four classes *)
From Verif Require Import AoASpec AoS AoSSpec SortedSpec SetsProofs2 Sparsity SparsitySpec CRS CRSSpec.
From Verif Require AoAProofs4 AoSProofs SparsityProofs CRSProofs2 CRSProofs4.
Definition arrays_den {V} (L : list (list V * nat)) (x : unit) (c : list (list V) * list nat) : Prop := map fst L = fst c /\ map (@wid V) L = snd c.
Lemma total_wid {V} (L : list (list V * nat)) : total L = list_sum (map (@wid V) L).
Proof. induction L; simpl; auto. Qed.
Lemma stale_believed {V} (L0 L : list (list V * nat)) : stale L0 L = believed (map (@wid V) L0) (map (@wid V) L).
Proof. unfold stale, believed. rewrite !map_length, firstn_map, <- !total_wid. reflexivity. Qed.
Lemma resized_nil {A} n (x : A) : resized_to [] n x = repeat x n.
Proof. unfold resized_to. rewrite firstn_nil. cbn. rewrite Nat.sub_0_r. reflexivity. Qed.

Section Arrays.
Variable V : Type.
Variable chk tv : bool.
Variable dflt : V.
Notation idv := (fun v : V => v).
Notation fu := (fun _ : V => tt).
Lemma arrays_program p e : nullable_program ([], []) (rows_step tv dflt) (@rows_revive V) (rows_room tv) (rows_intact tv) p = Some e ->
  exists st, executes (aoa_class chk tv true false tt (arrays_step chk tv dflt)) p (mkState [] []) = Ok st /\
    final (aoa_class chk tv true false tt (arrays_step chk tv dflt)) (@null_value _) (isv idv fu tv true false tt arrays_den) st e.
Proof.
  intros H. eapply class_program with (allowed := fun _ _ => True); [| | | | | |exact H].
  - split; reflexivity.
  - intros f a [] [M K] c' L A [Df Dw] _ Hs. unfold rows_step in Hs. cbn [fst snd] in *. destruct (tv || full M K)%bool eqn:Ef; [|discriminate].
    destruct (vec_step dflt f M) as [M'|] eqn:Ev; [|discriminate]. injection Hs as <-.
    assert (R : AoAProofs4.arep tv true fu a M K) by (exists L; auto). pose proof (@AoAProofs4.step_ok V unit chk tv true fu dflt f a M K R) as S. rewrite Ev, Ef in S.
    destruct S as [(a' & Ea & (L' & A' & D1 & D2))|[S _]]; [|discriminate]. unfold arrays_step. cbn [fst snd]. rewrite Ea. cbn [bind]. exists a', tt, L'. split; [reflexivity|]. split; [exact A'|]. split; auto.
  - intros f c' Hr _. unfold arrays_step. cbn [fst snd]. destruct f; try discriminate; injection Hr as <-; cbn [astep].
    + pose proof (@AoAProofs4.new_ok V unit chk tv true fu n cap) as (a' & Ea & (L' & A' & D1 & D2)). unfold new_aoa in Ea. rewrite Ea. cbn [bind]. exists a', tt, L'. split; [reflexivity|]. split; [exact A'|]. split; auto.
    + destruct (@AoAProofs2.resizeFromCapacities_ok V V unit idv fu chk tv true false _ [] caps (@null_pok V V unit idv fu tv true false)) as (a' & -> & A'). cbn [bind]. exists a', tt, (AoAProofs2.empties V caps). split; [reflexivity|]. split; [exact A'|].
      unfold AoAProofs2.empties. split; cbn [fst snd]; rewrite map_map; [reflexivity|]. unfold wid. cbn. apply map_id.
  - intros L0 x0 [M0 K0] L x [M K] cap [_ D0] [_ D] Hr Hc. cbn [fst snd] in *. unfold rows_room, enough in Hr. cbn [snd] in Hr. subst K0 K. rewrite <- stale_believed, <- !total_wid in Hr. split; [|discriminate].
    unfold roomy. destruct (Nat.leb_spec (total L) (total L0)) as [Le|]; [destruct (Nat.leb_spec (total L) cap); [reflexivity|lia]|]. cbn in Hr. destruct (stale L0 L =? 0); [rewrite orb_true_r; reflexivity|]. cbn in Hr.
    destruct tv; [|discriminate]. apply Nat.leb_le in Hr. destruct (Nat.leb_spec (stale L0 L) cap); [rewrite !orb_true_r; reflexivity|lia].
  - intros L x [M K] [Df _] Hi. unfold rows_intact in Hi. cbn [fst] in Hi, Df. subst M. unfold allt. cbn. rewrite andb_true_r. destruct tv; [reflexivity|]. cbn in *. unfold empty_rows. rewrite forallb_forall in *. intros r Hr.
    apply Hi. apply in_map. exact Hr.
  - apply admitted_all.
Qed.
End Arrays.

Lemma no_rows_room {P} t (L0 L : list (list P * nat)) cap : L0 = [] -> roomy t cap (stale L0 L) (total L) = true.
Proof. intros ->. unfold roomy, stale. cbn. rewrite orb_true_r. reflexivity. Qed.
Lemma empties_sets {P V} (fv : P -> V) lt caps : Forall2 (rowset fv lt) (AoAProofs2.empties P caps) (map (fun _ => none) caps).
Proof. unfold AoAProofs2.empties. induction caps; simpl; constructor; auto. apply rowset_nil. Qed.

Section Sets.
Variable V : Type.
Variable chk : bool.
Variable lt eqb : V -> V -> bool.
Variable dflt : V.
Hypothesis T : total_order lt eqb.
Notation idv := (fun v : V => v).
Notation fu := (fun _ : V => tt).
Definition sets_den (L : list (list V * nat)) (x : unit) (M : list (V -> Prop)) : Prop := Forall2 (rowset idv lt) L M.
Definition sets_allowed (c : tcall V) (x : option (list (V -> Prop))) : Prop := tallowed lt c.
Lemma sets_program p e : nullable_admitted [] (AoSSpec.set_step lt) sets_revive no_rows (fun _ => true) sets_allowed p ->
  nullable_program [] (AoSSpec.set_step lt) (@sets_revive V) no_rows (fun _ => true) p = Some e ->
  exists st, executes (aoa_class chk true true false tt (sets_step chk lt eqb dflt)) p (mkState [] []) = Ok st /\
    final (aoa_class chk true true false tt (sets_step chk lt eqb dflt)) (@null_value _) (isv idv fu true true false tt sets_den) st e.
Proof.
  intros Al H. eapply class_program with (allowed := sets_allowed); [| | | | |exact Al|exact H].
  - constructor.
  - intros f a [] M M' L A D Af Hs. assert (R : rep idv fu true true false lt a M) by (exists L; auto).
    pose proof (@AoSProofs.tstep_ok V unit fu chk true true lt eqb T dflt f a M R Af) as S. rewrite Hs in S.
    destruct S as [([a' r] & Ea & (L' & A' & D') & _)|[S _]]; [|discriminate]. unfold sets_step. cbn [fst snd]. rewrite Ea. cbn [bind]. exists a', tt, L'. auto.
  - intros f c' Hr _. unfold sets_step. cbn [fst snd]. destruct f; try discriminate; injection Hr as <-; cbn [tstep]; unfold AoS.void.
    + pose proof (@new_rep V V unit idv fu chk true true false lt n cap) as (a' & Ea & (L' & A' & D')). unfold new_aoa in Ea. rewrite Ea. cbn [bind]. exists a', tt, L'. auto.
    + destruct (@AoAProofs2.resizeFromCapacities_ok V V unit idv fu chk true true false _ [] caps (@null_pok V V unit idv fu true true false)) as (a' & -> & A'). cbn [bind]. exists a', tt, (AoAProofs2.empties V caps). split; [reflexivity|]. split; [exact A'|].
      apply empties_sets.
  - intros L0 x0 M0 L x M cap D0 D Hr Hc. destruct M0; [|discriminate]. assert (L0 = []) by (unfold sets_den in D0; inversion D0; reflexivity). split; intros; apply no_rows_room; auto.
  - reflexivity.
Qed.
End Sets.

Section Patterns.
Variable chk : bool.
Variable cmax : Z.
Notation idv := (fun v : Z => v).
Notation fu := (fun _ : Z => tt).
Definition pattern_den (L : list (list Z * nat)) (x : nat) (st : pat_state) : Prop :=
  Forall2 (rowset idv Z.ltb) L (fst st) /\ x = snd st /\ SparsityProofs.ranged (snd st) (fst st).
Definition pattern_allowed (c : pcall) (x : option pat_state) : Prop := match x with Some st => pallowed c st | None => True end.
Lemma pattern_program p e : nullable_admitted ([], 0) (pat_step cmax) (pat_revive cmax) (fun x y => no_rows (fst x) (fst y)) (fun _ => true) pattern_allowed p ->
  nullable_program ([], 0) (pat_step cmax) (pat_revive cmax) (fun x y => no_rows (fst x) (fst y)) (fun _ => true) p = Some e ->
  exists st, executes (aoa_class chk true true false 0 (pattern_step chk cmax)) p (mkState [] []) = Ok st /\
    final (aoa_class chk true true false 0 (pattern_step chk cmax)) (@null_value _) (isv idv fu true true false 0 pattern_den) st e.
Proof.
  intros Al H. eapply class_program with (allowed := pattern_allowed); [| | | | |exact Al|exact H].
  - split; [constructor|]. split; [reflexivity|]. intros S x [].
  - intros f a x st st' L A (D1 & D2 & D3) Af Hs. assert (R : @SparsityProofs.prep unit tt true (mkSP a x) st) by (split; [exists L; auto|split; auto]).
    pose proof (@SparsityProofs.pstep_ok unit tt chk true cmax f _ st R Af) as S. rewrite Hs in S.
    destruct S as ([[a' x'] r] & Ea & ((L' & A' & D') & N' & G') & _). unfold pattern_step. cbn [fst snd]. rewrite Ea. cbn [bind Sparsity.rows ncols]. exists a', x', L'. split; [reflexivity|]. split; [exact A'|]. split; auto.
  - intros f c' Hr _. unfold pattern_step. cbn [fst snd]. destruct f; try discriminate; cbn [pat_revive pat_step] in Hr;
      destruct (cmax <? Z.of_nat nc - 1)%Z eqn:Ec; try discriminate; injection Hr as <-; cbn [pstep]; unfold quiet.
    + rewrite resized_nil. destruct (@SparsityProofs.new_prep unit tt chk true cmax nr nc cap Ec) as ([a' x'] & Ea & ((L' & A' & D') & N' & G')). unfold new_sp in Ea. rewrite Ea. cbn [bind Sparsity.rows ncols]. exists a', x', L'.
      split; [reflexivity|]. split; [exact A'|]. split; auto.
    + unfold sp_resizeFromRowCapacities, check_numCols. rewrite Ec. cbn [error_if bind Sparsity.rows]. destruct (@AoAProofs2.resizeFromCapacities_ok Z Z unit idv fu chk true true false _ [] caps (@null_pok Z Z unit idv fu true true false)) as (a' & -> & A'). cbn [bind Sparsity.rows ncols].
      exists a', nc, (AoAProofs2.empties Z caps). split; [reflexivity|]. split; [exact A'|]. split; [apply empties_sets|]. split; [reflexivity|]. intros S x Hx. apply in_map_iff in Hx. destruct Hx as (? & <- & _). intros [].
  - intros L0 x0 [M0 c0] L x M cap (D0 & _) D Hr Hc. cbn in *. destruct M0; [|discriminate]. assert (L0 = []) by (inversion D0; reflexivity). split; intros; apply no_rows_room; auto.
  - reflexivity.
Qed.
End Patterns.

Section Matrices.
Variable W : Type.
Variable chk : bool.
Variable cmax : Z.
Variable add : W -> W -> W.
Variable zero : W.
Notation P := (Z * W)%type.
Definition matrix_den (L : list (list P * nat)) (x : nat) (st : mat_state W) : Prop :=
  Forall2 (rowset (@fst Z W) Z.ltb) L (fst st) /\ x = snd st /\ CRSProofs2.mranged (snd st) (fst st).
Definition matrix_allowed (c : ccall W) (x : option (mat_state W)) : Prop := match x with Some st => callowed true c st | None => True end.
Lemma matrix_program p e :
  nullable_admitted ([], 0) (mat_step add zero cmax) (mat_revive (mat_step add zero cmax)) (fun x y => no_rows (fst x) (fst y)) (fun _ => true) matrix_allowed p ->
  nullable_program ([], 0) (mat_step add zero cmax) (mat_revive (mat_step add zero cmax)) (fun x y => no_rows (fst x) (fst y)) (fun _ => true) p = Some e ->
  exists st, executes (aoa_class chk true true true 0 (matrix_step chk cmax add zero)) p (mkState [] []) = Ok st /\
    final (aoa_class chk true true true 0 (matrix_step chk cmax add zero)) (@null_value _) (isv (@fst Z W) (@snd Z W) true true true 0 matrix_den) st e.
Proof.
  intros Al H. eapply class_program with (allowed := matrix_allowed); [| | | | |exact Al|exact H].
  - split; [constructor|]. split; [reflexivity|]. intros S x [].
  - intros f a x st st' L A (D1 & D2 & D3) Af Hs. assert (R : @CRSProofs2.mrep W true (mkSP a x) st) by (split; [exists L; auto|split; auto]).
    pose proof (@CRSProofs4.cstep_ok W chk true add zero cmax f _ st R Af) as S. rewrite Hs in S.
    destruct S as [([[a' x'] r] & Ea & ((L' & A' & D') & N' & G') & _)|[S _]]; [|discriminate]. unfold matrix_step. cbn [fst snd]. rewrite Ea. cbn [bind Sparsity.rows ncols]. exists a', x', L'. split; [reflexivity|]. split; [exact A'|]. split; auto.
  - intros f c' Hr _. unfold matrix_step. cbn [fst snd]. destruct f; try discriminate; cbn [mat_revive mat_step] in Hr;
      destruct (cmax <? Z.of_nat nc - 1)%Z eqn:Ec; try discriminate; injection Hr as <-; cbn [cstep]; unfold quiet.
    + rewrite resized_nil. destruct (@CRSProofs4.new_mrep W chk true cmax nr nc cap Ec) as ([a' x'] & Ea & ((L' & A' & D') & N' & G')). unfold new_sp in Ea. rewrite Ea. cbn [bind Sparsity.rows ncols]. exists a', x', L'.
      split; [reflexivity|]. split; [exact A'|]. split; auto.
    + unfold sp_resizeFromRowCapacities, check_numCols. rewrite Ec. cbn [error_if bind Sparsity.rows]. destruct (@AoAProofs2.resizeFromCapacities_ok P Z W (@fst Z W) (@snd Z W) chk true true true _ [] caps (@null_pok P Z W (@fst Z W) (@snd Z W) true true true)) as (a' & -> & A'). cbn [bind Sparsity.rows ncols].
      exists a', nc, (AoAProofs2.empties P caps). split; [reflexivity|]. split; [exact A'|]. split; [apply empties_sets|]. split; [reflexivity|]. intros S x Hx. apply in_map_iff in Hx. destruct Hx as (? & <- & _). intros [w []].
  - intros L0 x0 [M0 c0] L x M cap (D0 & _) D Hr Hc. cbn in *. destruct M0; [|discriminate]. assert (L0 = []) by (inversion D0; reflexivity). split; intros; apply no_rows_room; auto.
  - reflexivity.
Qed.
End Matrices.
