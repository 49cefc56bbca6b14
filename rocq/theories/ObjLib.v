(** * ObjLib: lemmas about the store of objects (Objects.v). *)
From Verif Require Export Objects.
Local Open Scope nat_scope.

(** ** Lists and updates *)
Lemma upd_obj_length h : forall a f, List.length (upd_obj h a f) = List.length h.
Proof. induction h as [|o h IH]; intros [|a] f; simpl; auto. Qed.
Lemma upd_obj_same h : forall a f o, nth_error h a = Some o -> nth_error (upd_obj h a f) a = Some (f o).
Proof. induction h as [|p h IH]; intros [|a'] f o H; simpl in *; try discriminate; auto. congruence. Qed.
Lemma upd_obj_other h : forall a b f, a <> b -> nth_error (upd_obj h a f) b = nth_error h b.
Proof. induction h as [|p h IH]; intros [|a'] [|b] f H; simpl; auto; try congruence. Qed.
Lemma upd_obj_id h : forall a f, (forall o, nth_error h a = Some o -> f o = o) -> upd_obj h a f = h.
Proof.
  induction h as [|o h IH]; intros [|a] f H; simpl; auto.
  - f_equal. now apply H.
  - f_equal. apply IH. intros o' Ho. now apply H.
Qed.
Lemma nth_lt {A} (h : list A) a : a < List.length h -> exists o, nth_error h a = Some o.
Proof. intros H. destruct (nth_error h a) eqn:E; eauto. apply nth_error_None in E. lia. Qed.
Lemma nth_some {A} (h : list A) a o : nth_error h a = Some o -> a < List.length h.
Proof. intros H. apply nth_error_Some. congruence. Qed.

Lemma seqo_some {A B} (f : A -> option B) l : (forall x, In x l -> exists y, f x = Some y) ->
  exists ys, seqo (map f l) = Some ys /\ List.length ys = List.length l.
Proof.
  induction l as [|x l IH]; intros H; [now exists []|]. destruct (H x) as [y Hy]; [now left|].
  destruct IH as (ys & E & L); [intros z Hz; apply H; now right|]. exists (y :: ys). simpl. rewrite Hy, E. simpl. auto.
Qed.
Lemma seqo_inv {A B} (f : A -> option B) l : forall ys, seqo (map f l) = Some ys -> Forall2 (fun x y => f x = Some y) l ys.
Proof.
  induction l as [|x l IH]; simpl; intros ys H; [injection H as <-; constructor|].
  destruct (f x) eqn:E; [|discriminate]. destruct (seqo (map f l)) eqn:E2; [|discriminate]. injection H as <-. constructor; auto.
Qed.
Lemma seqo_f2 {A B} (f : A -> option B) l ys : Forall2 (fun x y => f x = Some y) l ys -> seqo (map f l) = Some ys.
Proof. induction 1; simpl; auto. now rewrite H, IHForall2. Qed.

Lemma f2_mono {A B} (P R : A -> B -> Prop) l m : (forall x y, P x y -> R x y) -> Forall2 P l m -> Forall2 R l m.
Proof. intros H. induction 1; constructor; auto. Qed.

(** ** Well-formed stores: fields are older objects, leaves are leaves *)
Definition leaf (e : expr) : Prop :=
  match e with ERat _ | EPi | EE | EInf | ENegInf | ESym _ | EAny _ => True | _ => False end.
Definition leaf_shape (s : shape) : Prop := match s with SLeaf e => leaf e | _ => True end.
Definition wf (h : store) : Prop :=
  forall a o, nth_error h a = Some o -> (forall k, In k (skids (o_sh o)) -> k < a) /\ leaf_shape (o_sh o).

Lemma denf_S n : forall h a e, denf n h a = Some e -> denf (S n) h a = Some e.
Proof.
  induction n as [|n IH]; intros h a e H; [discriminate|]. cbn [denf] in H.
  change (denf (S (S n)) h a) with
    (match nth_error h a with None => None | Some o =>
       match seqo (map (denf (S n) h) (skids (o_sh o))) with Some es => build_shape (o_sh o) es | None => None end end).
  destruct (nth_error h a) as [o|] eqn:E; [|discriminate].
  destruct (seqo (map (denf n h) (skids (o_sh o)))) as [es|] eqn:Es; [|discriminate].
  assert (G : seqo (map (denf (S n) h) (skids (o_sh o))) = Some es).
  { apply seqo_f2. apply seqo_inv in Es. revert Es. apply f2_mono. auto. }
  now rewrite G.
Qed.
Lemma denf_le n m h a e : n <= m -> denf n h a = Some e -> denf m h a = Some e.
Proof. induction 1; auto. intros. apply denf_S. auto. Qed.

Lemma build_total s es : List.length es = List.length (skids s) -> exists e, build_shape s es = Some e.
Proof.
  destruct s; simpl; intros H; eauto; destruct es as [|e1 [|e2 [|e3 es]]]; simpl in H; try discriminate; eauto.
Qed.

Section Wf.
Context (h : store) (W : wf h).

Lemma denf_total n : forall a, a < n -> a < List.length h -> exists e, denf n h a = Some e.
Proof.
  induction n as [|n IH]; intros a Ha L; [lia|]. destruct (nth_lt h a L) as [o Ho]. cbn [denf]. rewrite Ho.
  destruct (W a o Ho) as [K _].
  destruct (seqo_some (denf n h) (skids (o_sh o))) as (es & E & Le).
  { intros k Hk. apply IH; specialize (K k Hk); lia. }
  rewrite E. now apply build_total.
Qed.
Lemma den_total a : a < List.length h -> exists e, den h a = Some e.
Proof. intros L. apply denf_total; auto. Qed.
Lemma denf_den n a e : denf n h a = Some e -> den h a = Some e.
Proof.
  intros H. destruct (Nat.le_ge_cases n (S (List.length h))) as [L|L]; [now apply (denf_le n)|].
  assert (La : a < List.length h).
  { destruct n; [discriminate|]. cbn [denf] in H. destruct (nth_error h a) eqn:E; [|discriminate]. now apply nth_some in E. }
  destruct (den_total a La) as [e' He]. rewrite He. f_equal. unfold den in He. apply (denf_le _ n) in He; auto. congruence.
Qed.
Lemma den_lt a e : den h a = Some e -> a < List.length h.
Proof. unfold den. cbn [denf]. destruct (nth_error h a) eqn:E; [|discriminate]. intros _. now apply nth_some in E. Qed.
Lemma den_unfold a o : nth_error h a = Some o ->
  den h a = match seqo (map (den h) (skids (o_sh o))) with Some es => build_shape (o_sh o) es | None => None end.
Proof.
  intros Ho. destruct (den_total a (nth_some _ _ _ Ho)) as [e He]. rewrite He.
  unfold den in He. cbn [denf] in He. rewrite Ho in He.
  destruct (seqo (map (denf (List.length h) h) (skids (o_sh o)))) as [es|] eqn:Es; [|discriminate].
  assert (G : seqo (map (den h) (skids (o_sh o))) = Some es).
  { apply seqo_f2. apply seqo_inv in Es. revert Es. apply f2_mono. intros x y. apply denf_den. }
  now rewrite G.
Qed.
End Wf.

(** ** The denotation depends on the shapes only *)
Definition same (h h' : store) : Prop := map o_sh h = map o_sh h'.
Lemma same_refl h : same h h. Proof. reflexivity. Qed.
Lemma same_trans a b c : same a b -> same b c -> same a c. Proof. unfold same; congruence. Qed.
Lemma same_len h h' : same h h' -> List.length h = List.length h'.
Proof. intros E. rewrite <- (map_length o_sh h), E. apply map_length. Qed.
Lemma same_nth h h' a o : same h h' -> nth_error h a = Some o -> exists o', nth_error h' a = Some o' /\ o_sh o' = o_sh o.
Proof.
  intros E H. assert (G : nth_error (map o_sh h) a = Some (o_sh o)) by now apply map_nth_error.
  rewrite E, nth_error_map in G. destruct (nth_error h' a) as [o'|]; [|discriminate]. exists o'. simpl in G. split; congruence.
Qed.
Lemma same_sym h h' : same h h' -> same h' h. Proof. unfold same; congruence. Qed.
Lemma denf_same n : forall h h' a, same h h' -> denf n h a = denf n h' a.
Proof.
  induction n as [|n IH]; intros h h' a E; auto. cbn [denf].
  destruct (nth_error h a) as [o|] eqn:H.
  - destruct (same_nth _ _ _ _ E H) as (o' & -> & ->).
    rewrite (map_ext (denf n h) (denf n h')); auto.
  - destruct (nth_error h' a) as [o'|] eqn:H'; auto.
    destruct (same_nth _ _ _ _ (same_sym _ _ E) H') as (o & Ho & _). congruence.
Qed.
Lemma den_same h h' a : same h h' -> den h a = den h' a.
Proof. intros E. unfold den. rewrite (same_len _ _ E). now apply denf_same. Qed.
Lemma wf_same h h' : same h h' -> wf h -> wf h'.
Proof.
  intros E W a o H. destruct (same_nth _ _ _ _ (same_sym _ _ E) H) as (o' & Ho & S). rewrite <- S. now apply (W a).
Qed.
Lemma terms_same cls h h' a : same h h' -> terms_if cls h a = terms_if cls h' a.
Proof.
  intros E. unfold terms_if. destruct (nth_error h a) as [o|] eqn:H.
  - destruct (same_nth _ _ _ _ E H) as (o' & -> & ->). reflexivity.
  - destruct (nth_error h' a) as [o'|] eqn:H'; auto.
    destruct (same_nth _ _ _ _ (same_sym _ _ E) H') as (o & Ho & _). congruence.
Qed.
Lemma upd_same_shape h : forall a f, (forall o, o_sh (f o) = o_sh o) -> same h (upd_obj h a f).
Proof.
  intros a f Hf. revert a. induction h as [|o h IH]; intros [|a]; unfold same in *; simpl; auto.
  - now rewrite Hf.
  - now rewrite <- IH.
Qed.

(** ** A new object changes nothing *)
Lemma nth_snoc_lt (h : store) o a : a < List.length h -> nth_error (h ++ [o]) a = nth_error h a.
Proof. intros. now apply nth_error_app1. Qed.
Lemma denf_snoc n : forall h o a, wf h -> a < List.length h -> denf n (h ++ [o]) a = denf n h a.
Proof.
  induction n as [|n IH]; intros h o a W L; auto. cbn [denf]. rewrite nth_snoc_lt by auto.
  destruct (nth_error h a) as [p|] eqn:E; auto. destruct (W a p E) as [K _].
  rewrite (map_ext_in (denf n (h ++ [o])) (denf n h)); auto.
  intros k Hk. apply IH; auto. specialize (K k Hk). lia.
Qed.
Definition new_ok (h : store) (s : shape) : Prop := (forall k, In k (skids s) -> k < List.length h) /\ leaf_shape s.
Lemma wf_snoc h s c : wf h -> new_ok h s -> wf (h ++ [mkobj s c]).
Proof.
  intros W [N L] a o H. destruct (Nat.lt_ge_cases a (List.length h)) as [La|La].
  - rewrite nth_snoc_lt in H by auto. now apply W.
  - rewrite nth_error_app2 in H by auto. destruct (a - List.length h) as [|[|]] eqn:D; simpl in H; try discriminate.
    injection H as <-. simpl. replace a with (List.length h) by lia. auto.
Qed.
Lemma den_snoc h s c a : wf h -> new_ok h s -> a < List.length h -> den (h ++ [mkobj s c]) a = den h a.
Proof.
  intros W N L. destruct (den_total h W a L) as [e He]. rewrite He.
  assert (W' := wf_snoc h s c W N). apply (denf_den _ W' (S (List.length h))).
  rewrite denf_snoc by auto. exact He.
Qed.
Lemma terms_snoc cls h o a : a < List.length h -> terms_if cls (h ++ [o]) a = terms_if cls h a.
Proof. intros L. unfold terms_if. now rewrite nth_snoc_lt. Qed.

(** ** Changing the terms of one object *)
Definition set_ok (h : store) (a : nat) (ts : list nat) := forall k, In k ts -> k < a.
Lemma set_sh_nth h a s b : nth_error (set_sh h a s) b =
  if Nat.eqb a b then option_map (fun o => mkobj s (o_cache o)) (nth_error h b) else nth_error h b.
Proof.
  unfold set_sh. destruct (Nat.eqb_spec a b) as [->|N].
  - destruct (nth_error h b) eqn:E; simpl; [now rewrite (upd_obj_same _ _ _ _ E)|].
    apply nth_error_None in E. apply nth_error_None. now rewrite upd_obj_length.
  - now apply upd_obj_other.
Qed.
Lemma wf_set h a s : wf h -> (forall k, In k (skids s) -> k < a) -> leaf_shape s -> wf (set_sh h a s).
Proof.
  intros W K L b o H. rewrite set_sh_nth in H. destruct (Nat.eqb_spec a b) as [->|N]; [|now apply W].
  destruct (nth_error h b) as [p|]; [|discriminate]. injection H as <-. simpl. auto.
Qed.
Lemma set_sh_length h a s : List.length (set_sh h a s) = List.length h.
Proof. apply upd_obj_length. Qed.
Lemma terms_set cls h a l b : a < List.length h -> terms_if cls (set_sh h a (mk_terms cls l)) b =
  if Nat.eqb a b then Some l else terms_if cls h b.
Proof.
  intros La. unfold terms_if. rewrite set_sh_nth. destruct (Nat.eqb_spec a b) as [->|N]; auto.
  destruct (nth_lt h b La) as [o ->]. simpl. now destruct cls.
Qed.
Lemma terms_if_nth cls h a ts : terms_if cls h a = Some ts <->
  exists o, nth_error h a = Some o /\ o_sh o = mk_terms cls ts.
Proof.
  unfold terms_if. split.
  - destruct (nth_error h a) as [o|]; [|discriminate]. intros H. exists o. split; auto.
    destruct (o_sh o), cls; try discriminate; injection H as ->; reflexivity.
  - intros (o & -> & ->). now destruct cls.
Qed.
Lemma set_sh_id h a cls ts : terms_if cls h a = Some ts -> set_sh h a (mk_terms cls ts) = h.
Proof.
  intros H. apply terms_if_nth in H as (o & Ho & S). apply upd_obj_id. intros o' Ho'.
  assert (o' = o) by congruence. subst. rewrite <- S. now destruct o.
Qed.
