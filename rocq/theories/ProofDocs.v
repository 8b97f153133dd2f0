(** Calls of builtins are as documented (C99). *)
From Verif Require Import Base Float NumText Vecc Value Ast Arith VmOps Args Builtins Compiler Vm Std Console Docs SpecDocs.

(** ** Parameters and their documentation *)
Definition kind_doc (k : pkind) : rstring :=
  match k with
  | PAny => str "any" | PInt => str "int" | PInt32 => str "int32" | PU8 => str "u8" | PBool => str "bool"
  | PFloat => str "float" | PDouble => str "double" | PNum => str "num" | PStr => str "str" | PColor => str "color"
  | PList => str "list" | PPair => str "pair" | PRest => str "rest" | PSpecial _ => []
  end.
Definition kind_ok (k : pkind) : bool := match k with PFloat | PPair | PSpecial _ => false | _ => true end.
Fixpoint documents (ps : list param) (l : list arg_doc) : Prop :=
  match ps, l with
  | [], [] => True
  | Req PRest :: ps', d :: l' => ad_type d = str "rest" /\ ad_optional d = false /\ ps' = [] /\ l' = []
  | Req k :: ps', d :: l' => kind_ok k = true /\ ad_type d = kind_doc k /\ ad_optional d = false /\ documents ps' l'
  | Opt PRest :: _, _ => False
  | Opt k :: ps', d :: l' => kind_ok k = true /\ ad_type d = kind_doc k /\ ad_optional d = true /\ documents ps' l'
  | _, _ => False
  end.
Lemma convert_allowed k v x : kind_ok k = true -> k <> PRest -> convert mfi k v = Ok x -> allowed (kind_doc k) v.
Proof.
  intros Hk Hr. destruct k; cbn [kind_ok] in Hk; try discriminate; try contradiction; cbn [convert kind_doc]; intros H;
    try (destruct v; try discriminate H; first [constructor; fail | apply al_number; [cbn; tauto | unfold number; eauto]]).
Qed.
Lemma convert_total k v : convert mfi k v <> Panic.
Proof. destruct k; cbn [convert]; try discriminate; destruct v; try discriminate. destruct (seqb _ _); discriminate. Qed.
Lemma take_cases k args : kind_ok k = true -> k <> PRest ->
  (exists e, take mfi k args = Err e) \/ exists x v rest, take mfi k args = Ok (x, rest) /\ args = v :: rest /\ allowed (kind_doc k) v.
Proof.
  intros Hk Hr. assert (E : take mfi k args = (let! p := consume (kind_name k) args in let! x := convert mfi k (fst p) in Ok (x, snd p))).
  { destruct k; try reflexivity. contradiction. }
  rewrite E. destruct args as [|v rest]; cbn [consume rbind]; [eauto|]. cbn [fst snd].
  pose proof (convert_total k v) as HT. destruct (convert mfi k v) as [x|e|] eqn:EC; cbn [rbind]; [|eauto|contradiction].
  right. exists x, v, rest. split; [reflexivity|]. split; auto. eapply convert_allowed; eauto.
Qed.
Lemma documents_req k ps l : documents (Req k :: ps) l -> k <> PRest -> exists d l', l = d :: l' /\ kind_ok k = true /\ ad_type d = kind_doc k /\ documents ps l'.
Proof. destruct l as [|d l]; [destruct k; intros []|]. intros H Hk. exists d, l. destruct k; cbn in *; try contradiction; tauto. Qed.
Lemma documents_opt k ps l : documents (Opt k :: ps) l -> exists d l', l = d :: l' /\ kind_ok k = true /\ k <> PRest /\ ad_type d = kind_doc k /\ ad_optional d = true /\ documents ps l'.
Proof.
  destruct l as [|d l]; [destruct k; intros []|]. intros H. exists d, l.
  destruct k; cbn in *; try contradiction; try (repeat split; try tauto; discriminate).
Qed.
Lemma fitting_nil_opt d l : ad_optional d = true -> fitting l [] -> (forall d', In d' l -> ad_type d' <> str "rest") -> fitting (d :: l) [].
Proof.
  intros Hd H Hn. constructor. constructor; auto. inversion H; subst; auto. exfalso. eapply Hn; [left; reflexivity|assumption].
Qed.
(** Behind an optional parameter there are only optional ones. *)
Fixpoint tail_optional (ps : list param) : bool :=
  match ps with
  | Opt _ :: t => forallb (fun p => match p with Opt _ => true | Req _ => false end) t
  | Req _ :: t => tail_optional t
  | [] => true
  end.
Lemma all_optional ps : forall l, forallb (fun p => match p with Opt _ => true | Req _ => false end) ps = true -> documents ps l ->
  Forall (fun d => ad_optional d = true) l.
Proof.
  induction ps as [|[k|k] ps IH]; intros l H D.
  - destruct l; [constructor|destruct D].
  - discriminate H.
  - apply documents_opt in D. destruct D as (d & l' & -> & _ & _ & _ & Ho & D). constructor; auto.
Qed.

(** ** Bodies *)
Fixpoint outs (P : value -> Prop) (ps : list param) : @sig mfn ps -> Prop :=
  match ps return sig ps -> Prop with
  | [] => fun r => forall v, r = Ok v -> P v
  | Req k :: t => fun f => forall x, outs P t (f x)
  | Opt k :: t => fun f => forall x, outs P t (f x)
  end.
Lemma tail_opt_tail k ps : tail_optional (Opt k :: ps) = true -> tail_optional ps = true.
Proof. cbn. intros H. destruct ps as [|[]]; [reflexivity|discriminate|]. cbn in *. exact H. Qed.

Lemma call_documented P ps : forall l (f : sig ps) args, documents ps l -> tail_optional ps = true -> outs P ps f ->
  (exists e, call mfi ps f args = Err e) \/ (fitting l args /\ forall v, call mfi ps f args = Ok v -> P v).
Proof.
  induction ps as [|[k|k] ps IH]; intros l f args D T O.
  - destruct l; [|destruct D]. cbn [call]. destruct args as [|v args]; cbn [stop rbind]; [|eauto].
    right. split; [constructor; constructor|]. exact O.
  - cbn [call]. destruct (match k with PRest => true | _ => false end) eqn:Ek.
    + destruct k; try discriminate. destruct l as [|d l]; [destruct D|]. cbn [documents] in D. destruct D as (D1 & D2 & -> & ->).
      cbn [take rbind fst snd call stop]. right. split; [apply ft_rest; auto|]. apply (O args).
    + assert (Hk : k <> PRest) by (intros ->; discriminate). destruct (documents_req _ _ _ D Hk) as (d & l' & -> & K1 & K2 & K3).
      destruct (take_cases k args K1 Hk) as [(e & E)|(x & v & rest & E & -> & A)]; rewrite E; cbn [rbind]; [eauto|].
      cbn [fst snd]. destruct (IH l' (f x) rest K3 T (O x)) as [H|[H1 H2]]; [left; exact H|right]. split; [|exact H2].
      apply ft_arg; auto. rewrite K2. exact A.
  - cbn [call]. destruct (documents_opt _ _ _ D) as (d & l' & -> & K1 & Hk & K2 & K3 & K4). pose proof (tail_opt_tail _ _ T) as T'.
    destruct args as [|a args].
    + cbn [take_opt rbind fst snd]. destruct (IH l' (f None) [] K4 T' (O None)) as [H|[H1 H2]]; [left; exact H|right].
      split; [|exact H2]. constructor. constructor; auto. eapply all_optional; eauto.
    + cbn [take_opt]. destruct (take_cases k (a :: args) K1 Hk) as [(e & E)|(x & v & rest & E & Ea & A)]; rewrite E; cbn [rbind]; [eauto|].
      injection Ea as -> ->. cbn [fst snd]. destruct (IH l' (f (Some x)) rest K4 T' (O (Some x))) as [H|[H1 H2]]; [left; exact H|right].
      split; [|exact H2]. apply ft_arg; auto. rewrite K2. exact A.
Qed.

Fixpoint wouts (P : value -> Prop) (ps : list param) : @wsig mfn ps -> Prop :=
  match ps return wsig ps -> Prop with
  | [] => fun f => forall w v, snd (f w) = Ok v -> P v
  | Req k :: t => fun f => forall x, wouts P t (f x)
  | Opt k :: t => fun f => forall x, wouts P t (f x)
  end.
Lemma wcall_documented P ps : forall l (f : wsig ps) args w, documents ps l -> tail_optional ps = true -> wouts P ps f ->
  (exists e, wcall mfi ps f args w = (w, Err e)) \/ (fitting l args /\ forall v, snd (wcall mfi ps f args w) = Ok v -> P v).
Proof.
  induction ps as [|[k|k] ps IH]; intros l f args w D T O.
  - destruct l; [|destruct D]. cbn [wcall]. destruct args as [|v args]; cbn [stop rbind]; [|eauto].
    right. split; [constructor; constructor|]. apply O.
  - cbn [wcall]. destruct (match k with PRest => true | _ => false end) eqn:Ek.
    + destruct k; try discriminate. destruct l as [|d l]; [destruct D|]. cbn [documents] in D. destruct D as (D1 & D2 & -> & ->).
      cbn [take rbind fst snd wcall stop]. right. split; [apply ft_rest; auto|]. apply (O args).
    + assert (Hk : k <> PRest) by (intros ->; discriminate). destruct (documents_req _ _ _ D Hk) as (d & l' & -> & K1 & K2 & K3).
      destruct (take_cases k args K1 Hk) as [(e & E)|(x & v & rest & E & -> & A)]; rewrite E; cbn [rbind]; [eauto|].
      cbn [fst snd]. destruct (IH l' (f x) rest w K3 T (O x)) as [H|[H1 H2]]; [left; exact H|right]. split; [|exact H2].
      apply ft_arg; auto. rewrite K2. exact A.
  - cbn [wcall]. destruct (documents_opt _ _ _ D) as (d & l' & -> & K1 & Hk & K2 & K3 & K4). pose proof (tail_opt_tail _ _ T) as T'.
    destruct args as [|a args].
    + cbn [take_opt rbind fst snd]. destruct (IH l' (f None) [] w K4 T' (O None)) as [H|[H1 H2]]; [left; exact H|right].
      split; [|exact H2]. constructor. constructor; auto. eapply all_optional; eauto.
    + cbn [take_opt]. destruct (take_cases k (a :: args) K1 Hk) as [(e & E)|(x & v & rest & E & Ea & A)]; rewrite E; cbn [rbind]; [eauto|].
      injection Ea as -> ->. cbn [fst snd]. destruct (IH l' (f (Some x)) rest w K4 T' (O (Some x))) as [H|[H1 H2]]; [left; exact H|right].
      split; [|exact H2]. apply ft_arg; auto. rewrite K2. exact A.
Qed.
