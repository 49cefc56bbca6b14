(** * PropsH: LaTeX output (C49) on concrete expressions; powers of powers (C65). *)
From Verif Require Export Latex Oracle.
Open Scope Z_scope.

Definition lat (e : expr) : res string := latexE exact_cfg (K exact_cfg 40) 40 e.

(** -ln|x^2 + 1| / 2 + x atan(x) (README), a negated product, nested fractions, roots *)
Definition lat_e1 : expr :=
  ESum [EProd [ERat (-1 # 2); ELog (EAbs (ESum [EPow (ESym "x") (ERat 2); ERat 1])) EE];
        EProd [ETrig Atan (ESym "x"); ESym "x"]].
Definition lat_e2 : expr :=
  ETrig Tan (EProd [ESum [ESym "x"; ERat 2]; EPow (ESum [ESym "alpha_{1}"; EPow (ESym "y") (ERat (-1 # 2))]) (ERat (-1))]).
Example c49_ex :
  lat lat_e1 = Ok "-\frac {\ln \left( \left| x^2 + 1 \right| \right)}2 + \tan^{-1} (x) \cdot x"%string /\
  balanced "-\frac {\ln \left( \left| x^2 + 1 \right| \right)}2 + \tan^{-1} (x) \cdot x" /\
  (exists s, lat lat_e2 = Ok s /\ balanced s) /\
  (forall v, contains v lat_e2 = true -> balanced v).
Proof.
  assert (B : balanced "alpha_{1}") by (exists Txt, []; split; reflexivity).
  assert (HV : forall v, contains v lat_e2 = true -> balanced v).
  { intros v H. cbn [contains lat_e2 existsb orb] in H. rewrite ?orb_false_r in H.
    repeat (apply orb_prop in H as [H|H]); try discriminate; apply String.eqb_eq in H; subst v; auto;
    exists Txt, []; split; reflexivity. }
  assert (H1 : lat lat_e1 = Ok "-\frac {\ln \left( \left| x^2 + 1 \right| \right)}2 + \tan^{-1} (x) \cdot x"%string)
    by (vm_compute; reflexivity).
  split; [exact H1|]. split; [|split; [|exact HV]].
  - apply (c49_plain_names exact_cfg 40 40 lat_e1); [|exact H1].
    intros v H. cbn [contains lat_e1 existsb orb] in H. rewrite ?orb_false_r in H.
    repeat (apply orb_prop in H as [H|H]); try discriminate; apply String.eqb_eq in H; subst v; reflexivity.
  - assert (E : exists s, lat lat_e2 = Ok s) by (eexists; vm_compute; reflexivity).
    destruct E as [s E]. exists s. split; [exact E|]. exact (c49_balanced exact_cfg 40 40 lat_e2 s HV E).
Qed.
(** The hypothesis on names is needed, and [balanced] rejects something. *)
Example c49_names_needed : lat (ESym "x_{") = Ok "x_{"%string /\ ~ balanced "x_{".
Proof.
  split; [vm_compute; reflexivity|]. intros (m & st & H1 & H2). vm_compute in H1. injection H1 as <- <-. discriminate H2.
Qed.
