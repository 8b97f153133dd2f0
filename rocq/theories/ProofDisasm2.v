(** All listings; marked lines (C39, C65). *)
From Coq Require Import Sorted.
From Verif Require Import Base RleVec Pool Vecc Float NumText Bytecode Chunk Value Ast Arith VmOps
                          Compiler Vm Items CodeRel CodeSize SpecReady ProofCode Disasm SpecDisasm ProofDisasm.

Section All.
Context (lineno : span -> option nat) (gs : pool rstring).
Notation dis_fn := (dis_function lineno gs).

Definition dis_consts (depth : nat) : list value -> list nat -> option (res (list listing * list nat)) :=
  fix go (cs : list value) (js : list nat) : option (res (list listing * list nat)) :=
    match cs with
    | [] => Some (Ok ([], js))
    | VFn (MFun g) :: rest =>
        match dis_fn depth g js with
        | Some (Ok (l1, js1)) =>
            match go rest js1 with
            | Some (Ok (l2, js2)) => Some (Ok (l1 ++ l2, js2))
            | r => r
            end
        | r => r
        end
    | _ :: rest => go rest js
    end.
Lemma dis_fn_S depth f js : dis_fn (S depth) f js =
  match dis_chunk lineno gs (fn_chunk f) js with
  | Ok (lines, js1, _) =>
      match dis_consts depth (ck_consts (fn_chunk f)) js1 with
      | Some (Ok (l, js2)) => Some (Ok (mkListing (fn_name f) (fn_nspan f) lines :: l, js2))
      | r => r
      end
  | Err e => Some (Err e)
  | Panic => Some Panic
  end.
Proof using. reflexivity. Qed.

Lemma consts_sub depth cs : forall js l js', dis_consts depth cs js = Some (Ok (l, js')) ->
  forall g, In (VFn (MFun g)) cs -> exists jg lg jg', dis_fn depth g jg = Some (Ok (lg, jg')) /\ incl lg l.
Proof using.
  induction cs as [|v cs IH]; intros js l js' H g Hin; [destruct Hin|].
  destruct Hin as [->|Hin].
  - cbn [dis_consts] in H. fold (dis_consts depth) in H. destruct (dis_fn depth g js) as [[[l1 js1]| |]|] eqn:E1; try discriminate.
    destruct (dis_consts depth cs js1) as [[[l2 js2]| |]|] eqn:E2; try discriminate. injection H as <- <-.
    exists js, l1, js1. split; [auto|]. apply incl_appl, incl_refl.
  - cbn [dis_consts] in H. fold (dis_consts depth) in H.
    assert (Skip : dis_consts depth cs js = Some (Ok (l, js')) -> exists jg lg jg', dis_fn depth g jg = Some (Ok (lg, jg')) /\ incl lg l)
      by (intros K; eapply IH; eauto).
    destruct v; try (apply Skip; exact H). destruct f as [h|]; [|apply Skip; exact H].
    destruct (dis_fn depth h js) as [[[l1 js1]| |]|] eqn:E1; try discriminate.
    destruct (dis_consts depth cs js1) as [[[l2 js2]| |]|] eqn:E2; try discriminate. injection H as <- <-.
    destruct (IH _ _ _ E2 g Hin) as (jg & lg & jg' & A & B). exists jg, lg, jg'. split; [auto|]. apply incl_appr; auto.
Qed.

Lemma fn_sub depth f js l js' : dis_fn depth f js = Some (Ok (l, js')) ->
  (exists lines js1 stop, dis_chunk lineno gs (fn_chunk f) js = Ok (lines, js1, stop) /\ In (mkListing (fn_name f) (fn_nspan f) lines) l) /\
  forall g, In (VFn (MFun g)) (ck_consts (fn_chunk f)) -> exists d jg lg jg', dis_fn d g jg = Some (Ok (lg, jg')) /\ incl lg l.
Proof using.
  destruct depth as [|depth]; [discriminate|]. rewrite dis_fn_S. intros H.
  destruct (dis_chunk lineno gs (fn_chunk f) js) as [[[lines js1] stop]| |] eqn:E1; try discriminate.
  destruct (dis_consts depth _ js1) as [[[l2 js2]| |]|] eqn:E2; try discriminate. injection H as <- <-. split.
  - exists lines, js1, stop. split; [auto|left; auto].
  - intros g Hg. destruct (consts_sub _ _ _ _ _ E2 g Hg) as (jg & lg & jg' & A & B).
    exists depth, jg, lg, jg'. split; [auto|]. apply incl_tl; auto.
Qed.

(** ** Marks *)
Lemma take_keeps x y js : In x js -> x <> y -> In x (snd (take_jump y js)).
Proof using.
  induction js as [|z js IH]; cbn; [auto|]. intros H Hn. destruct (Nat.eqb_spec z y).
  - destruct H as [->|H]; [contradiction|auto].
  - destruct (take_jump y js) as [b t]. cbn in *. destruct H as [->|H]; auto.
Qed.
Lemma take_found x js : In x js -> fst (take_jump x js) = true.
Proof using.
  induction js as [|z js IH]; cbn; [tauto|]. intros H. destruct (Nat.eqb_spec z x); [auto|].
  destruct (take_jump x js). cbn in *. apply IH. destruct H; [congruence|auto].
Qed.
Lemma captures_le ops n : forall off r, dis_captures ops n off = Ok r -> off <= snd r.
Proof using.
  induction n as [|n IH]; intros off r; cbn [dis_captures]; [intros [= <-]; auto|].
  destruct (bc_read_u8 ops off); cbn [rbind]; try discriminate. destruct (bc_read_u16 ops _); cbn [rbind]; try discriminate.
  destruct (dis_captures ops n (off + 3)) as [r'| |] eqn:E; cbn [rbind]; try discriminate. intros [= <-]. apply IH in E. cbn. lia.
Qed.
Ltac rb H := let a := fresh "a" in let E := fresh "E" in
  match type of H with rbind ?x _ = Ok _ => destruct x as [a| |] eqn:E; cbn [rbind] in H; [|discriminate H|discriminate H] end.
Lemma dis_op_le op c off d : dis_op gs op c off = Ok d ->
  off <= d_next d /\ (forall t, d_hint d = Some (HJump t) -> d_push d = Some t).
Proof using.
  unfold dis_op. intros H.
  repeat match type of H with (if ?b then _ else _) = Ok _ => destruct b end.
  all: repeat rb H.
  all: try (injection H as <-; cbn; split; [lia|discriminate]).
  - destruct a0; try (injection H as <-; cbn; split; [lia|discriminate]).
    match type of H with match ?x with _ => _ end = _ => destruct x as [g|] end; [|injection H as <-; cbn; split; [lia|discriminate]].
    rb H. injection H as <-. apply captures_le in E1. cbn. split; [lia|discriminate].
  - repeat match type of H with (if ?b then _ else _) = Ok _ => destruct b end; try discriminate;
      injection H as <-; cbn; split; try lia; congruence.
  - destruct (alookup _ _ _); injection H as <-; cbn; split; try lia; discriminate.
Qed.

Lemma walk_marks c fuel : forall off js lines js' stop, walk lineno gs fuel c off js = Ok (lines, js', stop) ->
  Forall (fun ln => off <= ln_offset ln /\ (In (ln_offset ln) js -> ln_is_jump ln = true)) lines /\
  forall a b t, In a lines -> In b lines -> ln_hint a = Some (HJump t) -> ln_offset b = t -> ln_offset a < t -> ln_is_jump b = true.
Proof using.
  induction fuel as [|fuel IH]; intros off js lines js' stop; cbn [walk].
  - intros [= <- <- <-]. split; [constructor|intros a b t []].
  - destruct (off <? length (ck_ops c)); [|intros [= <- <- <-]; split; [constructor|intros a b t []]].
    destruct (lineno (chunk_get_span c off)) as [n|].
    + destruct (take_jump off js) as [b0 js1] eqn:Et. intros H. rb H. rb H.
      set (js2 := match d_push a0 with Some t => js1 ++ [t] | None => js1 end) in *. rb H. destruct a1 as [[ls jsx] st]. cbn [fst snd] in H.
      injection H as <- <- <-. destruct (IH _ _ _ _ _ E1) as [I1 I2]. destruct (dis_op_le _ _ _ _ E0) as [Hle Hp].
      rewrite Forall_forall in I1. split.
      * constructor; cbn [ln_offset ln_is_jump].
        -- split; [lia|]. intros Hin. apply take_found in Hin. rewrite Et in Hin. exact Hin.
        -- apply Forall_forall. intros ln Hln. destruct (I1 ln Hln) as [J1 J2]. split; [lia|]. intros Hin. apply J2.
           pose proof (take_keeps (ln_offset ln) off js Hin ltac:(lia)) as K. rewrite Et in K. cbn in K.
           unfold js2. destruct (d_push a0); [apply in_or_app; auto|auto].
      * intros x y t Hx Hy Hh Ho Hlt. destruct Hy as [<-|Hy].
        -- exfalso. cbn [ln_offset] in Ho. subst t. destruct Hx as [<-|Hx]; [cbn in Hlt; lia|]. destruct (I1 x Hx). lia.
        -- destruct Hx as [<-|Hx]; [|apply (I2 x y t); auto]. cbn [ln_hint] in Hh. specialize (Hp t Hh).
           destruct (I1 y Hy) as [_ J2]. apply J2. rewrite Ho. unfold js2. rewrite Hp. apply in_or_app. right. left. reflexivity.
    + intros H. destruct (IH _ _ _ _ _ H) as [I1 I2]. split; [|exact I2]. eapply Forall_impl; [|exact I1].
      cbn beta. intros ln [J1 J2]. split; [lia|auto].
Qed.
End All.

Theorem output_right m ast s f lineno depth out : compile m ast = COk s -> weights ast <= u16max ->
  disassemble lineno depth s = Some (Ok out) -> used s f -> has_lines lineno (fn_chunk f) ->
  exists lines, In (mkListing (fn_name f) (fn_nspan f) lines) out /\ right_listing s (fn_chunk f) lines (length (ck_ops (fn_chunk f))).
Proof.
  intros H Hw Hd Hu Hl.
  assert (K : exists d js l js', dis_function lineno (sc_globals s) d f js = Some (Ok (l, js')) /\ incl l out).
  { clear Hl. unfold disassemble in Hd. destruct (dis_function lineno (sc_globals s) depth (sc_function s) []) as [[[l js']| |]|] eqn:E; try discriminate.
    injection Hd as ->. induction Hu as [|f p i next k g Hu IH Hb Hdc Hc Hn]; [exists depth, [], out, js'; split; [auto|apply incl_refl]|].
    destruct IH as (d & js & l & js1 & A & B). apply fn_sub in A. destruct A as [_ A].
    destruct (A g) as (d' & jg & lg & jg' & C1 & C2); [eapply nth_error_In; eauto|].
    exists d', jg, lg, jg'. split; [auto|]. eapply incl_tran; eauto. }
  destruct K as (d & js & l & js' & A & B). apply fn_sub in A. destruct A as [(lines & js1 & stop & C1 & C2) _].
  destruct (listing_right m ast s f lineno js H Hw Hu Hl) as (lines' & js1' & stop' & D1 & D2).
  rewrite C1 in D1. injection D1 as <- <- <-. exists lines. split; [auto|]. rewrite <- (rl_stop _ _ _ _ D2). exact D2.
Qed.

Lemma forward_marked lineno gs c js lines js' stop a b t : dis_chunk lineno gs c js = Ok (lines, js', stop) ->
  In a lines -> In b lines -> ln_hint a = Some (HJump t) -> ln_offset b = t -> ln_offset a < t -> ln_is_jump b = true.
Proof. intros H. eapply walk_marks; eauto. Qed.
