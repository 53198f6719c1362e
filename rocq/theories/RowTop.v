(** RowPar.v with the effect of the calls given as in RowSpec.v. *)
From Coq Require Import List Arith ZArith Lia Bool.
From Verif Require Import Base BaseProofs Mem BufferManip AoA AoALayout Conc Prog ProgProofs ViewProg ViewSim RowSim RowPar RowSpec.
From Verif Require AoAProofs.
Import ListNotations.
Set Implicit Arguments.

Section Top.
Variables P V W : Type.
Variable fv : P -> V.
Variable fw : P -> W.
Variable tv tw dual : bool.
Notation row := (list P * nat)%type.
Notation rows := (list row).
Notation aoa := (aoa V W).
Notation heap := (heap V W).
Notation prog := (prog V W).
Notation aok := (@AoAProofs.aok P V W fv fw tv tw dual).
Variables Op Res : Type.
Variable pr : nat -> Op -> nat -> prog Res.
Variable fn : Op -> aoa -> nat -> outcome (aoa * Res).
Variable next : nat -> Op -> list P -> option (list P * Res).
Variable good : list P -> Prop.
Hypothesis Hsim : forall n i0 o no ns nv ne op a i a' r h ix (Q : Res -> heap -> Prop), fn op a i = Ok (a', r) ->
  part n i0 o no ns nv ne a h -> ix = i0 + i -> (forall h', part n i0 o no ns nv ne a' h' -> Q r h') ->
  wp (readable i0 o no ns nv ne) (owned i0 o ns nv ne) (pr n op ix) h Q.
Hypothesis Hok : forall op a A l k B l' r, aok a (A ++ (l, k) :: B) -> good l -> next (length l + k) op l = Some (l', r) ->
  length l' <= length l + k ->
  exists a', fn op a (length A) = Ok (a', r) /\ aok a' (A ++ (l', length l + k - length l') :: B).
Hypothesis Hgood : forall c op l l' r, good l -> length l <= c -> next c op l = Some (l', r) -> good l'.
Hypothesis Hfit : forall c op l l' r, length l <= c -> next c op l = Some (l', r) -> length l' <= c.

Definition row_next (op : Op) (x : row) : option (row * Res) :=
  match next (length (fst x) + snd x) op (fst x) with
  | Some (l', r) => Some ((l', length (fst x) + snd x - length l'), r)
  | None => None
  end.
Lemma top_ok op a A x B x' r : aok a (A ++ x :: B) -> good (fst x) -> row_next op x = Some (x', r) ->
  exists a', fn op a (length A) = Ok (a', r) /\ aok a' (A ++ x' :: B).
Proof.
  destruct x as [l k]. unfold row_next. cbn [fst snd]. intros H G E. destruct (next (length l + k) op l) as [[l' r']|] eqn:N; [|discriminate].
  injection E as <- <-. eapply Hok; eauto. eapply Hfit; [|exact N]. lia.
Qed.
Lemma top_good op x x' r : good (fst x) -> row_next op x = Some (x', r) -> good (fst x').
Proof.
  destruct x as [l k]. unfold row_next. cbn [fst snd]. intros G E. destruct (next (length l + k) op l) as [[l' r']|] eqn:N; [|discriminate].
  injection E as <- <-. cbn. eapply Hgood; [exact G| |exact N]. lia.
Qed.
Lemma top_wid op x x' r : row_next op x = Some (x', r) -> wid x' = wid x.
Proof.
  destruct x as [l k]. unfold row_next, wid. cbn [fst snd]. intros E. destruct (next (length l + k) op l) as [[l' r']|] eqn:N; [|discriminate].
  injection E as <- <-. cbn. assert (length l' <= length l + k) by (eapply Hfit; [|exact N]; lia). lia.
Qed.
Lemma map_upd A B (f : A -> B) (l : list A) i x : map f (upd l i x) = upd (map f l) i (f x).
Proof. revert i. induction l; intros [|i]; cbn; congruence. Qed.
Lemma upd_same A (l : list A) i x : nth_error l i = Some x -> upd l i x = l.
Proof. revert i. induction l; intros [|i] E; cbn in *; try discriminate; [congruence|]. rewrite IHl; auto. Qed.
Lemma run_rows q : forall L M' rs, calls_run next (map (@wid P) L) q (map fst L) = Some (M', rs) ->
  exists L', s_calls row_next q L = Some (L', rs) /\ map fst L' = M' /\ map (@wid P) L' = map (@wid P) L.
Proof.
  induction q as [|[i op] q IH]; intros L M' rs E; cbn in E |- *.
  - injection E as <- <-. eauto.
  - rewrite !nth_error_map in E. destruct (nth_error L i) as [x|] eqn:N; cbn in E; [|discriminate].
    destruct (next (wid x) op (fst x)) as [[l' r]|] eqn:Nx; [|discriminate].
    assert (Er : row_next op x = Some ((l', wid x - length l'), r)) by (unfold row_next; unfold wid in *; rewrite Nx; reflexivity).
    rewrite Er. set (x' := (l', wid x - length l')) in *.
    replace (upd (map fst L) i l') with (map fst (upd L i x')) in E by (rewrite map_upd; reflexivity).
    assert (Ew : map (@wid P) (upd L i x') = map (@wid P) L).
    { rewrite map_upd. apply upd_same. rewrite nth_error_map, N. cbn [option_map]. f_equal. symmetry. eapply top_wid; eauto. }
    rewrite <- Ew in E. destruct (calls_run next (map (@wid P) (upd L i x')) q (map fst (upd L i x'))) as [[M1 rs1]|] eqn:Es; [|discriminate].
    injection E as <- <-. destruct (IH _ _ _ Es) as (L' & E' & Ef & Ew'). exists L'. rewrite E'. split; auto. split; auto. congruence.
Qed.

Theorem rows_top a L ths M' rs : aok a L -> Forall (fun x => good (fst x)) L -> separate ths ->
  calls_run next (map (@wid P) L) (concat ths) (map fst L) = Some (M', rs) ->
  exists a' rss L', rs = concat rss /\ f_calls fn (concat ths) a = Ok (a', rs) /\
    aok a' L' /\ Forall (fun x => good (fst x)) L' /\ map fst L' = M' /\ map (@wid P) L' = map (@wid P) L /\
    exists steps, forall sched, exists h' ths', exec (@access V W (list Res)) sched (heap_of a) (map (p_calls pr (numArrays a)) ths) = Ok (h', ths') /\ no_race ths' /\
      (fair (length ths) steps sched -> done ths') /\
      (done ths' -> ths' = map Ret rss /\ forall b i, h' b i = heap_of a' b i).
Proof.
  intros H G D E. destruct (run_rows _ _ E) as (L' & Es & Ef & Ew).
  destruct (@rows_parallel P V W fv fw tv tw dual Op Res pr fn row_next (fun x => good (fst x)) Hsim top_ok top_good top_wid a L ths L' rs H G D Es)
    as (a' & rss & Er & Efn & H' & G' & steps & St).
  exists a', rss, L'. split; auto. split; auto. split; auto. split; auto. split; auto. split; auto. exists steps. exact St.
Qed.
End Top.
