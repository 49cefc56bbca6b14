(** * PropsZ: computing and printing (C92): the text of a computed polynomial is the function computed. *)
From Coquelicot Require Import Coquelicot.
From Verif Require Import Base Expr Kernel Mono Sort Funcs FMono Calc Combi Sem RealLemmas Sound Simp Latex Frag FragNum FragLib
  PropsA PropsC PropsK Read Canon CanonR PropsM ReadTex TexRepr PropsN NForm NUniq NOps NExp PropsO PropsY.
Local Ltac splits := repeat match goal with |- _ /\ _ => split end.
Close Scope R_scope.
Local Open Scope nat_scope.

Section Print.
Context (c : cfg) (HX : fpow_exact (fpow c)).
Notation nform := (nform natq (faithful c)).
Lemma nform_names e : nform e -> Forall ident (names e).
Proof.
  intros (L & F & N & O & ->).
  assert (Q : Forall (fun x => Forall ident (names x)) (map term L)).
  { apply Forall_forall. intros x Hx. apply in_map_iff in Hx as (t & <- & Ht). rewrite Forall_forall in F. now apply (term_ident natq (faithful c)), F. }
  unfold sum_of. destruct (map term L) as [|x [|y l]]; [constructor|now inversion Q|].
  cbn [names]. apply Forall_forall. intros s Hs. apply in_flat_map in Hs as (z & Hz & Hs). rewrite Forall_forall in Q. specialize (Q z Hz). rewrite Forall_forall in Q. auto.
Qed.
Theorem c92_text p e n : allowed p -> computes c p e -> 8 <= n ->
  exists s t, reprE c n e = Ok s /\ reads s t /\ forall rho, tval rho t = pval p rho.
Proof.
  intros A C Hn. destruct (run_nform c HX p e A C) as (F & V).
  destruct (c75_polynomials c n natq e HX Hn (nform_poly _ _ _ F) (nform_names e F)) as (s & t & E & R & T).
  exists s, t. splits; auto. intros rho. rewrite <- V. apply T. eapply nform_wd; eauto.
Qed.
Theorem c92_latex p e m n : allowed p -> computes c p e -> Forall tname (names e) -> 4 <= m -> 7 <= n ->
  exists s t, latexE c (K c m) n e = Ok s /\ tex_reads s t /\ forall rho, tval rho t = pval p rho.
Proof.
  intros A C I1 Hm Hn. destruct (run_nform c HX p e A C) as (F & V).
  destruct (c76_polynomials c m n natq e HX Hm Hn (nform_poly _ _ _ F) I1) as (s & t & E & R & T).
  exists s, t. splits; auto. intros rho. rewrite <- V. apply T. eapply nform_wd; eauto.
Qed.
(** two programs print the same text exactly when they compute the same function *)
Theorem c92_same_text p q e f n s s' : allowed p -> allowed q -> computes c p e -> computes c q f -> 8 <= n ->
  reprE c n e = Ok s -> reprE c n f = Ok s' -> (s = s' <-> forall rho, pval p rho = pval q rho).
Proof.
  intros A B C D Hn Es Es'. destruct (c92_text p e n A C Hn) as (z & t & E & R & T). destruct (c92_text q f n B D Hn) as (z' & t' & E' & R' & T').
  rewrite Es in E. injection E as <-. rewrite Es' in E'. injection E' as <-. split.
  - intros <- rho. rewrite <- T, <- T'. now rewrite (reads_unique _ _ _ R R').
  - intros H. destruct (run_nform c HX p e A C) as (F & V), (run_nform c HX q f B D) as (G & W).
    assert (e = f) as <- by (apply (nform_unique natq (faithful c) HX); auto; intros rho _; now rewrite V, W). rewrite Es in Es'. now injection Es'.
Qed.
Theorem c92_same_latex p q e f m n s s' : allowed p -> allowed q -> computes c p e -> computes c q f -> Forall tname (names e) -> Forall tname (names f) -> 4 <= m -> 7 <= n ->
  latexE c (K c m) n e = Ok s -> latexE c (K c m) n f = Ok s' -> (s = s' <-> forall rho, pval p rho = pval q rho).
Proof.
  intros A B C D Ie If Hm Hn Es Es'. destruct (c92_latex p e m n A C Ie Hm Hn) as (z & t & E & R & T). destruct (c92_latex q f m n B D If Hm Hn) as (z' & t' & E' & R' & T').
  rewrite Es in E. injection E as <-. rewrite Es' in E'. injection E' as <-. split.
  - intros <- rho. rewrite <- T, <- T'. now rewrite (tex_unique _ _ _ R R').
  - intros H. destruct (run_nform c HX p e A C) as (F & V), (run_nform c HX q f B D) as (G & W).
    assert (e = f) as <- by (apply (nform_unique natq (faithful c) HX); auto; intros rho _; now rewrite V, W). rewrite Es in Es'. now injection Es'.
Qed.
End Print.
(** the hypotheses are met: (x - 1)(x + 2/3) and x^2 - x/3 - 2/3 print alike *)
Definition ex92 : pexp := PSub (PSub (PPow (PSym "x") 2) (PMul (PNum (1 # 3)) (PSym "x"))) (PNum (2 # 3)).
Lemma c92_ex : allowed ex91 /\ allowed ex92 /\ (forall rho, pval ex91 rho = pval ex92 rho) /\ exists e, run12 ex91 = Ok e /\ run12 ex92 = Ok e /\ Forall tname (names e) /\
  reprE exact_cfg 8 e = Ok "x^2 - x/3 - 2/3"%string /\ latexE exact_cfg (K exact_cfg 4) 7 e = Ok "x^2 - \frac x3 - \frac 23"%string.
Proof.
  pose proof ident_x. split; [cbn; tauto|]. split; [cbn; tauto|]. split.
  { intros rho. cbn [pval ex91 ex92]. unfold Q2R. cbn. field. }
  eexists. split; [vm_compute; reflexivity|]. split; [vm_compute; reflexivity|].
  split; [repeat constructor; apply tnameb_ok; reflexivity|]. split; vm_compute; reflexivity.
Qed.
