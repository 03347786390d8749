(** * Heap: the algebra of frames and environments, and what single primitive
    operations do to the world. *)
From Coq Require Import Lia FMapPositive FMapFacts.
From Verif.Model Require Import Base Syntax World Prog Lex.
From Verif.Proofs Require Import Run.

Lemma fget_fset_same s v f : fget s (fset s v f) = Some v.
Proof.
  induction f as [|[k x] f IH]; simpl.
  - now rewrite String.eqb_refl.
  - destruct (String.eqb k s) eqn:E; simpl; rewrite E; auto.
Qed.
Lemma fget_fset_other s s' v f : s <> s' -> fget s (fset s' v f) = fget s f.
Proof.
  intros N. induction f as [|[k x] f IH]; simpl.
  - destruct (String.eqb s' s) eqn:E; auto. apply String.eqb_eq in E. congruence.
  - destruct (String.eqb k s') eqn:E; simpl.
    + apply String.eqb_eq in E; subst. destruct (String.eqb s' s) eqn:E2; auto.
      apply String.eqb_eq in E2. congruence.
    + destruct (String.eqb k s); auto.
Qed.
Lemma fget_fset s s' v f : fget s (fset s' v f) = if String.eqb s s' then Some v else fget s f.
Proof.
  destruct (String.eqb s s') eqn:E.
  - apply String.eqb_eq in E; subst. apply fget_fset_same.
  - apply fget_fset_other. intros ->. now rewrite String.eqb_refl in E.
Qed.

Lemma frame_at_set_frame w i j f :
  frame_at (set_frame i f w) j = if Pos.eqb i j then f else frame_at w j.
Proof.
  unfold frame_at, set_frame; simpl. destruct (Pos.eqb i j) eqn:E.
  - apply Pos.eqb_eq in E; subst. now rewrite PositiveMap.gss.
  - apply Pos.eqb_neq in E. rewrite PositiveMap.gso; auto.
Qed.
Lemma frame_at_set_frame_same w i f : frame_at (set_frame i f w) i = f.
Proof. now rewrite frame_at_set_frame, Pos.eqb_refl. Qed.
Lemma frame_at_set_frame_other w i j f : i <> j -> frame_at (set_frame i f w) j = frame_at w j.
Proof. intros. rewrite frame_at_set_frame. apply Pos.eqb_neq in H. now rewrite H. Qed.

Lemma frame_at_mk_env w p j :
  frame_at (snd (mk_env p w)) j = if Pos.eqb (w_next w) j then [] else frame_at w j.
Proof.
  unfold frame_at, mk_env; simpl. destruct (Pos.eqb (w_next w) j) eqn:E.
  - apply Pos.eqb_eq in E; subst. now rewrite PositiveMap.gss.
  - apply Pos.eqb_neq in E. rewrite PositiveMap.gso; auto.
Qed.

Lemma toplevel_in e i : In i (toplevel e) -> In i e.
Proof.
  induction e as [|a [|b e] IH]; simpl; auto. intros H. right. apply IH. exact H.
Qed.
Lemma toplevel_cases e : toplevel e = [] \/ exists i, toplevel e = [i].
Proof.
  induction e as [|a [|b e] IH]; simpl; eauto.
Qed.
Lemma toplevel_last e i : toplevel (e ++ [i]) = [i].
Proof.
  induction e as [|a e IH]; simpl; auto.
  destruct (e ++ [i]) eqn:E; [destruct e; discriminate|]. rewrite IH. reflexivity.
Qed.

(** lookup depends only on the frames of the chain. *)
Lemma lookup_ext e s w w' :
  (forall i, In i e -> fget s (frame_at w' i) = fget s (frame_at w i)) ->
  lookup e s w' = lookup e s w.
Proof.
  induction e as [|i e IH]; simpl; intros H; auto.
  rewrite H by auto. rewrite IH; auto.
Qed.

(** env_update_loop in terms of the nearest binder. *)
Fixpoint binder (e : env) (s : string) (w : world) : option positive :=
  match e with
  | [] => None
  | i :: p => match fget s (frame_at w i) with Some _ => Some i | None => binder p s w end
  end.
Lemma env_update_loop_binder e s v w :
  env_update_loop e s v w =
  match binder e s w with
  | Some i => (None, set_frame i (fset s v (frame_at w i)) w)
  | None => (Some (base_error (s ++ " is not bound in any environment")), w)
  end.
Proof.
  induction e as [|i e IH]; simpl; auto.
  destruct (fget s (frame_at w i)); auto.
Qed.
Lemma binder_in e s w i : binder e s w = Some i -> In i e /\ fget s (frame_at w i) <> None.
Proof.
  induction e as [|j e IH]; simpl; intros; [discriminate|].
  destruct (fget s (frame_at w j)) eqn:E.
  - injection H as ->. rewrite E. split; auto. discriminate.
  - apply IH in H. tauto.
Qed.
Lemma lookup_binder e s w :
  lookup e s w = match binder e s w with Some i => fget s (frame_at w i) | None => None end.
Proof.
  induction e as [|j e IH]; simpl; auto.
  destruct (fget s (frame_at w j)) eqn:E; auto.
Qed.

(** Effects of the operations that write bindings. *)
Inductive one_write (w : world) (i : positive) (s : string) (v : val) : world -> Prop :=
| OneWrite : one_write w i s v (set_frame i (fset s v (frame_at w i)) w).

(** ** Fields no operation changes, or changes monotonically. *)
Lemma exec_host B (o : op B) w : w_host (snd (exec o w)) = w_host w.
Proof.
  destruct o; simpl; auto.
  - unfold env_set. destruct (String.eqb s "t"), e; auto.
  - unfold env_set_top, env_set. destruct (String.eqb s "t"), (toplevel e); auto.
  - unfold env_update. destruct (String.eqb s "t"); auto. rewrite env_update_loop_binder.
    destruct (binder e s w); auto.
  - destruct (read_line "" (w_stdin w)); auto.
Qed.
Lemma exec_next B (o : op B) w : (w_next w <= w_next (snd (exec o w)))%positive.
Proof.
  destruct o; simpl; try lia.
  - unfold env_set. destruct (String.eqb s "t"), e; simpl; lia.
  - unfold env_set_top, env_set. destruct (String.eqb s "t"), (toplevel e); simpl; lia.
  - unfold env_update. destruct (String.eqb s "t"); simpl; try lia. rewrite env_update_loop_binder.
    destruct (binder e s w); simpl; lia.
  - destruct (read_line "" (w_stdin w)); simpl; lia.
Qed.
Lemma exec_out B (o : op B) w : exists evs, w_out (snd (exec o w)) = evs ++ w_out w.
Proof.
  destruct o; simpl; try (exists []; reflexivity).
  - exists []. unfold env_set. destruct (String.eqb s "t"), e; reflexivity.
  - exists []. unfold env_set_top, env_set. destruct (String.eqb s "t"), (toplevel e); reflexivity.
  - exists []. unfold env_update. destruct (String.eqb s "t"); auto. rewrite env_update_loop_binder.
    destruct (binder e s w); reflexivity.
  - exists [ev]. reflexivity.
  - exists []. destruct (read_line "" (w_stdin w)); reflexivity.
  - exists [Ran argv]. reflexivity.
Qed.
Lemma exec_gensym B (o : op B) w : (w_gensym w <= w_gensym (snd (exec o w)))%N.
Proof.
  destruct o; simpl; try lia.
  - unfold env_set. destruct (String.eqb s "t"), e; simpl; lia.
  - unfold env_set_top, env_set. destruct (String.eqb s "t"), (toplevel e); simpl; lia.
  - unfold env_update. destruct (String.eqb s "t"); simpl; try lia. rewrite env_update_loop_binder.
    destruct (binder e s w); simpl; lia.
  - destruct (read_line "" (w_stdin w)); simpl; lia.
Qed.

(** No frame binds [t]. *)
Definition t_unbound (w : world) : Prop := forall i, fget "t" (frame_at w i) = None.

Lemma t_unbound_set_frame w i s v :
  s <> "t" -> t_unbound w -> t_unbound (set_frame i (fset s v (frame_at w i)) w).
Proof.
  intros N H j. rewrite frame_at_set_frame. destruct (Pos.eqb i j) eqn:E; auto.
  rewrite fget_fset_other; auto.
Qed.
Lemma exec_t B (o : op B) w : t_unbound w -> t_unbound (snd (exec o w)).
Proof.
  intros H. destruct o; simpl; try exact H.
  - unfold env_set. destruct (String.eqb s "t") eqn:E; auto. apply String.eqb_neq in E.
    destruct e; simpl; auto. now apply t_unbound_set_frame.
  - unfold env_set_top, env_set. destruct (String.eqb s "t") eqn:E; auto. apply String.eqb_neq in E.
    destruct (toplevel e); simpl; auto. now apply t_unbound_set_frame.
  - unfold env_update. destruct (String.eqb s "t") eqn:E; auto. apply String.eqb_neq in E.
    rewrite env_update_loop_binder. destruct (binder e s w); simpl; auto. now apply t_unbound_set_frame.
  - intros i. pose proof (frame_at_mk_env w parent i) as X.
    change (fget "t" (frame_at (snd (mk_env parent w)) i) = None).
    rewrite X. destruct (Pos.eqb (w_next w) i); auto.
  - destruct (read_line "" (w_stdin w)); exact H.
Qed.
