(** * NUniq: two normal forms with the same value at all positive points are the same expression
    (for C77).  Monomials are multiplicative on positive assignments, and different multiplicative
    functions are linearly independent. *)
From Coquelicot Require Import Coquelicot.
From Verif Require Import Base Expr Kernel Mono Sort Sem RealLemmas Sound SoundPow Frag FragLib PropsA PropsC PropsK CanonR PropsM NForm.
From Coq Require Import Sorting.Sorted Sorting.Permutation Logic.Classical.
Local Ltac splits := repeat match goal with |- _ /\ _ => split end.
Local Open Scope R_scope.

Definition positive (rho : env) : Prop := forall s, 0 < rho s.
Definition mulenv (r1 r2 : env) : env := fun s => r1 s * r2 s.
Definition two (s : string) : env := fun t => if String.eqb t s then 2 else 1.
Definition one : env := fun _ => 1.
Lemma one_pos : positive one. Proof. intros s. unfold one. lra. Qed.
Lemma two_pos s : positive (two s).
Proof. intros t. unfold two. destruct (String.eqb t s); lra. Qed.
Lemma mul_pos r1 r2 : positive r1 -> positive r2 -> positive (mulenv r1 r2).
Proof. intros A B s. apply Rmult_lt_0_compat; auto. Qed.

Definition mval (rho : env) (l : list expr) : R := Rprod (map (ev rho) l).

Lemma mval_cons rho x l : mval rho (x :: l) = ev rho x * mval rho l.
Proof. reflexivity. Qed.

Section Uniq.
Context (X : Q -> Prop) (c : cfg) (HX : fpow_exact (fpow c)).
Notation natom := (natom X). Notation natoms := (natoms X c). Notation nterm := (nterm X c). Notation nform := (nform X c).

Lemma atom_mul r1 r2 x : positive r1 -> positive r2 -> natom x -> ev (mulenv r1 r2) x = ev r1 x * ev r2 x.
Proof. intros A B [s I|s q I Hx Hl H0 H1]; cbn; [reflexivity|]. unfold mulenv. now rewrite rpow_Rmult. Qed.
Lemma mval_mul r1 r2 l : positive r1 -> positive r2 -> Forall natom l -> mval (mulenv r1 r2) l = mval r1 l * mval r2 l.
Proof.
  intros A B. induction 1 as [|x l Hx F IH]; [cbn; lra|]. rewrite !mval_cons, IH, (atom_mul r1 r2 x); auto. lra.
Qed.
Lemma atom_pos rho x : positive rho -> natom x -> 0 < ev rho x.
Proof. intros A [s I|s q I Hx Hl H0 H1]; cbn; [auto|]. now apply rpow_gt0. Qed.
Lemma atom_one x : natom x -> ev one x = 1.
Proof. intros [s I|s q I Hx Hl H0 H1]; cbn; [reflexivity|]. apply rpow_1_l. Qed.
Lemma mval_one l : Forall natom l -> mval one l = 1.
Proof. induction 1 as [|x l Hx F IH]; [auto|]. rewrite mval_cons, IH, atom_one; auto. lra. Qed.

(** ** Different lists of powers differ in value somewhere *)
Definition xpo (x : expr) : Q := match x with EPow _ (ERat q) => q | _ => 1%Q end.
Lemma atom_two s x : natom x -> names x <> [s] -> ev (two s) x = 1.
Proof.
  intros [t I|t q I Hx Hl H0 H1] N; cbn in *; unfold two; (destruct (String.eqb_spec t s); [congruence|]); [reflexivity|]. apply rpow_1_l.
Qed.
Lemma atom_two_s s x : natom x -> names x = [s] -> ev (two s) x = Rpower 2 (Q2R (xpo x)).
Proof.
  intros [t I|t q I Hx Hl H0 H1] N; cbn in *; injection N as ->; unfold two; rewrite String.eqb_refl.
  - rewrite RMicromega.Q2R_1, Rpower_1; lra.
  - apply rpow_pos. lra.
Qed.
Lemma rpower2_inj a b : Rpower 2 a = Rpower 2 b -> a = b.
Proof.
  unfold Rpower. intros H. apply exp_inv in H. assert (0 < ln 2) by (rewrite <- ln_1; apply ln_increasing; lra).
  apply Rmult_eq_reg_r in H; auto. lra.
Qed.
Lemma xpo_ne x : natom x -> ~ (xpo x == 0)%Q.
Proof. intros [t I|t q I Hx Hl H0 H1]; cbn; auto. discriminate. Qed.
Lemma atom_det x y s : natom x -> natom y -> names x = [s] -> names y = [s] -> (xpo x == xpo y)%Q -> x = y.
Proof.
  intros [t I|t q I Hx Hl H0 H1] [t' I'|t' q' I' Hx' Hl' H0' H1']; cbn; intros A B E; injection A as ->; injection B as ->; auto.
  - destruct H1'. now symmetry.
  - destruct H1. auto.
  - now rewrite (lowest_eq q q' Hl Hl' E).
Qed.
(** exponent of a symbol in a list of powers *)
Lemma mval_two_out s l : Forall natom l -> ~ In s (flat_map names l) -> mval (two s) l = 1.
Proof.
  induction 1 as [|x l Hx F IH]; cbn [flat_map]; [reflexivity|]. intros N. rewrite in_app_iff in N.
  rewrite mval_cons, IH, atom_two; auto; [lra|]. intros E. apply N. left. rewrite E. now left.
Qed.
Lemma atom_name x : natom x -> exists s, names x = [s].
Proof. intros [t I|t q I Hx Hl H0 H1]; cbn; eauto. Qed.
Lemma mval_two_in s l x : Forall natom l -> NoDup (flat_map names l) -> In x l -> names x = [s] -> mval (two s) l = Rpower 2 (Q2R (xpo x)).
Proof.
  induction 1 as [|y l Hy F IH]; [intros _ []|]. cbn [flat_map]. intros N Hi Nx. rewrite mval_cons.
  destruct (atom_name y Hy) as (t & Ht). rewrite Ht in N. cbn [app] in N. inversion N as [|? ? Nin N']; subst.
  destruct Hi as [->|Hi].
  - rewrite Nx in Ht. injection Ht as ->. rewrite mval_two_out, (atom_two_s t x); auto. lra.
  - rewrite (IH N' Hi Nx).
    rewrite atom_two; auto; [lra|]. rewrite Ht. intros E. injection E as ->. apply Nin. apply in_flat_map. exists x. split; auto. rewrite Nx. now left.
Qed.
Lemma mval_incl l m : natoms l -> natoms m -> (forall rho, positive rho -> mval rho l = mval rho m) -> incl l m.
Proof.
  intros (Fl & Nl & _) (Fm & Nm & _) H x Hx. rewrite Forall_forall in Fl. pose proof (Fl x Hx) as Ax. destruct (atom_name x Ax) as (s & Es).
  specialize (H (two s) (two_pos s)). rewrite (mval_two_in s l x) in H; auto; [|now apply Forall_forall].
  destruct (in_dec string_dec s (flat_map names m)) as [Hi|Hi].
  - apply in_flat_map in Hi as (y & Hy & Hs). pose proof Fm as Fm'. rewrite Forall_forall in Fm. pose proof (Fm y Hy) as Ay.
    destruct (atom_name y Ay) as (t & Et). rewrite Et in Hs. destruct Hs as [->|[]]. rewrite (mval_two_in s m y) in H; auto.
    apply rpower2_inj in H. apply Qreals.eqR_Qeq in H. now rewrite (atom_det x y s).
  - rewrite (mval_two_out s m) in H; auto. exfalso. apply (xpo_ne x Ax). apply Qreals.eqR_Qeq. rewrite RMicromega.Q2R_0.
    apply rpower2_inj. rewrite H. rewrite Rpower_O; lra.
Qed.
Lemma natoms_nodup l : natoms l -> NoDup l.
Proof.
  intros (F & N & _). revert F N. induction l as [|x l IH]; intros F N; [constructor|]. inversion F as [|? ? Ax Fl]; subst.
  cbn [flat_map] in N. destruct (atom_name x Ax) as (s & Es). rewrite Es in N. inversion N as [|? ? Nin N']; subst. constructor; auto.
  intros Hi. apply Nin. apply in_flat_map. exists x. split; auto. rewrite Es. now left.
Qed.
Lemma mval_perm l m : natoms l -> natoms m -> (forall rho, positive rho -> mval rho l = mval rho m) -> Permutation l m.
Proof.
  intros A B H. apply NoDup_Permutation; auto using natoms_nodup. intros x. split; apply mval_incl; auto. intros. symmetry. auto.
Qed.
(** ** Printing tells terms apart *)
Lemma pos_wd rho e : positive rho -> poly X e -> wd rho e.
Proof.
  intros P. apply poly_wd. intros s q Hq. cbn. splits; auto. right. cbn. auto.
Qed.
Lemma term_val rho t : nterm t -> ev rho (term t) = Q2R (fst t) * mval rho (snd t).
Proof.
  destruct t as [a l]. intros (La & H0 & _). cbn [fst snd] in *.
  destruct (term_cases a l La) as [(-> & ->)|[(Ne & -> & ->)|(Ne & H1 & ->)]].
  - unfold mval. cbn. lra.
  - rewrite RMicromega.Q2R_1. destruct l as [|x [|y l]]; [congruence| |]; unfold mval; cbn; lra.
  - reflexivity.
Qed.
Lemma natoms_ident l : Forall natom l -> Forall ident (flat_map names l).
Proof. induction 1 as [|x l Hx F IH]; cbn [flat_map]; [constructor|]. apply Forall_app. split; auto. destruct Hx; cbn; auto. Qed.
Lemma term_ident t : nterm t -> Forall ident (names (term t)).
Proof.
  destruct t as [a l]. intros (La & H0 & F & _). cbn [fst snd] in *. apply natoms_ident in F.
  destruct (term_cases a l La) as [(-> & ->)|[(Ne & -> & ->)|(Ne & H1 & ->)]].
  - constructor.
  - destruct l as [|x [|y l]]; [congruence| |]; auto. cbn [flat_map] in F. now rewrite app_nil_r in F.
  - exact F.
Qed.
Lemma same_repr m a b s : mono X a -> mono X b -> Forall ident (names a) -> Forall ident (names b) ->
  k_repr (K c m) a = Ok s -> k_repr (K c m) b = Ok s -> forall rho, positive rho -> ev rho a = ev rho b.
Proof.
  intros A B Ia Ib Ra Rb rho P. apply (c75_injective c m m a b s HX); auto.
  - eapply mono_canonical; eauto.
  - eapply mono_canonical; eauto.
  - apply pos_wd; auto. now apply poly_mono.
  - apply pos_wd; auto. now apply poly_mono.
Qed.
Lemma distinct_atoms m l : Forall natom l -> distinct_repr (K c m) l.
Proof.
  intros F a b s Ha Hb Ra Rb. rewrite Forall_forall in F. pose proof (F a Ha) as Aa. pose proof (F b Hb) as Ab.
  assert (T : forall x, natom x -> natoms [x]).
  { intros x Ax. unfold NForm.natoms. splits; auto; [|apply ordered_one]. destruct (atom_name x Ax) as (t & Et). cbn. rewrite Et. repeat constructor. intros []. }
  assert (V : forall rho, positive rho -> mval rho [a] = mval rho [b]).
  { intros rho P. unfold mval. cbn. f_equal. apply (same_repr m a b s); auto.
    - apply mono_fac. now apply (natom_shape X).
    - apply mono_fac. now apply (natom_shape X).
    - destruct Aa; cbn; auto.
    - destruct Ab; cbn; auto. }
  apply (mval_perm [a] [b] (T a Aa) (T b Ab)) in V. now apply Permutation_length_1 in V.
Qed.
Lemma natoms_eq l m : natoms l -> natoms m -> (forall rho, positive rho -> mval rho l = mval rho m) -> l = m.
Proof.
  intros A B H. pose proof (mval_perm l m A B H) as P. destruct A as (Fa & Na & na & Sa), B as (Fb & Nb & nb & Sb).
  apply (sorted_unique (K c (Nat.max na nb))); auto.
  - eapply sorted_fuel; [|exact Sa]. lia.
  - eapply sorted_fuel; [|exact Sb]. lia.
  - now apply distinct_atoms.
Qed.
Lemma term_eq t u : nterm t -> nterm u -> (forall rho, positive rho -> ev rho (term t) = ev rho (term u)) -> t = u.
Proof.
  destruct t as [a l], u as [b m]. intros T U H. pose proof T as (La & Ha & Al). pose proof U as (Lb & Hb & Am). cbn [fst snd] in *.
  assert (E : a = b).
  { specialize (H one one_pos). rewrite !term_val in H by auto. cbn [fst snd] in H. rewrite !mval_one in H by (apply Al || apply Am).
    apply lowest_eq; auto. apply Qreals.eqR_Qeq. lra. }
  subst b. f_equal. apply natoms_eq; auto. intros rho P. specialize (H rho P). rewrite !term_val in H by auto. cbn [fst snd] in H.
  apply Rmult_eq_reg_l in H; auto. intros E. apply Ha. apply Qreals.eqR_Qeq. now rewrite E, RMicromega.Q2R_0.
Qed.
Lemma distinct_terms m L : Forall nterm L -> distinct_repr (K c m) (map term L).
Proof.
  intros F a b s Ha Hb Ra Rb. apply in_map_iff in Ha as (t & <- & Ht). apply in_map_iff in Hb as (u & <- & Hu).
  rewrite Forall_forall in F. f_equal. apply term_eq; auto. apply (same_repr m _ _ s); auto using term_ident.
  - apply (term_mono X c); auto.
  - apply (term_mono X c); auto.
Qed.

(** ** Linear independence *)
Definition lin (rho : env) (L : list (R * list expr)) : R := fold_right (fun t r => fst t * mval rho (snd t) + r) 0 L.
Lemma lin_ext rho (f : R * list expr -> R) L : lin rho (map (fun t => (f t, snd t)) L) = fold_right (fun t r => f t * mval rho (snd t) + r) 0 L.
Proof. induction L as [|t L IH]; cbn; [auto|]. now rewrite <- IH. Qed.
Lemma independent : forall n L, (List.length L <= n)%nat -> Forall (fun t => natoms (snd t)) L -> NoDup (map snd L) ->
  (forall rho, positive rho -> lin rho L = 0) -> Forall (fun t => fst t = 0) L.
Proof.
  induction n as [|n IH]; intros L Ln F N H; (destruct L as [|[a l] L]; [constructor|]); [cbn in Ln; lia|].
  inversion F as [|? ? Al Fl]; subst. inversion N as [|? ? Nin Nd]; subst. cbn [fst snd] in *. cbn in Ln.
  assert (Z : Forall (fun t => fst t = 0) L).
  { apply Forall_forall. intros [b m] Hb. cbn [fst].
    assert (Am : natoms m) by (rewrite Forall_forall in Fl; apply (Fl (b, m) Hb)).
    assert (D : exists sg, positive sg /\ mval sg m <> mval sg l).
    { apply NNPP. intros Q. apply Nin. assert (m = l) as <-; [|apply in_map_iff; exists (b, m); auto].
      apply natoms_eq; auto. intros rho P. destruct (Req_dec (mval rho m) (mval rho l)); auto. exfalso. apply Q. eauto. }
    destruct D as (sg & Ps & Hs).
    pose (f := fun t : R * list expr => fst t * (mval sg (snd t) - mval sg l)).
    assert (G : Forall (fun t => fst t = 0) (map (fun t => (f t, snd t)) L)).
    { apply IH.
      - rewrite map_length. lia.
      - apply Forall_forall. intros t Ht. apply in_map_iff in Ht as (u & <- & Hu). rewrite Forall_forall in Fl. exact (Fl u Hu).
      - rewrite map_map. exact Nd.
      - intros rho P. rewrite lin_ext. pose proof (H rho P) as H1. pose proof (H (mulenv sg rho) (mul_pos _ _ Ps P)) as H2.
        unfold lin in H1, H2. cbn [fold_right fst snd] in H1, H2. rewrite (mval_mul sg rho l) in H2 by (auto; apply Al).
        assert (Q : fold_right (fun t r => f t * mval rho (snd t) + r) 0 L =
          fold_right (fun t r => fst t * mval (mulenv sg rho) (snd t) + r) 0 L - mval sg l * fold_right (fun t r => fst t * mval rho (snd t) + r) 0 L).
        { clear -Fl Ps P. induction L as [|t L IHL]; cbn [fold_right]; [lra|]. inversion Fl; subst. rewrite (IHL H2).
          rewrite (mval_mul sg rho (snd t)) by (auto; apply H1). unfold f. lra. }
        rewrite Q. nra. }
    rewrite Forall_forall in G. specialize (G (f (b, m), m)). cbn [fst] in G.
    assert (Hf : f (b, m) = 0). { apply G. apply in_map_iff. exists (b, m). auto. }
    unfold f in Hf. cbn [fst snd] in Hf. apply Rmult_integral in Hf as [Hf|Hf]; auto. exfalso. lra. }
  constructor; auto. cbn [fst]. specialize (H one one_pos). unfold lin in H. cbn [fold_right fst snd] in H. rewrite mval_one in H by apply Al.
  assert (Q : fold_right (fun t r => fst t * mval one (snd t) + r) 0 L = 0).
  { clear -Z. induction Z as [|t L Ht Z IH]; cbn [fold_right]; auto. rewrite IH, Ht. lra. }
  rewrite Q in H. lra.
Qed.

(** ** Uniqueness *)
Definition lc (rho : env) (L : list (Q * list expr)) : R := fold_right (fun t r => Q2R (fst t) * mval rho (snd t) + r) 0 L.
Lemma lc_val rho L : Forall nterm L -> ev rho (sum_of (map term L)) = lc rho L.
Proof.
  intros F. assert (G : Rsum (map (ev rho) (map term L)) = lc rho L).
  { induction F as [|t L T F IH]; [reflexivity|]. cbn [map]. unfold lc. cbn [fold_right]. fold (lc rho L). rewrite <- IH, <- term_val by auto. reflexivity. }
  rewrite <- G. destruct L as [|t [|u L]]; unfold sum_of; cbn [map].
  - cbn. rewrite RMicromega.Q2R_0. reflexivity.
  - cbn. lra.
  - reflexivity.
Qed.
Lemma lin_perm rho L M : Permutation L M -> lin rho L = lin rho M.
Proof. induction 1 as [|x L M P IH|x y L|L M N P IH P' IH']; unfold lin in *; cbn [fold_right]; [lra|rewrite IH; lra|lra|congruence]. Qed.
Lemma nodup_fst {A} (D : list (A * list expr)) a b m : NoDup (map snd D) -> In (a, m) D -> In (b, m) D -> a = b.
Proof.
  induction D as [|[x l] D IH]; [intros _ []|]. cbn [map snd]. intros N. inversion N as [|? ? Nin Nd]; subst.
  intros [E|E] [E'|E'].
  - congruence.
  - injection E as -> ->. exfalso. apply Nin. apply in_map_iff. exists (b, m). auto.
  - injection E' as -> ->. exfalso. apply Nin. apply in_map_iff. exists (a, m). auto.
  - auto.
Qed.
Lemma merge (A : list (R * list expr)) : NoDup (map snd A) -> forall B, NoDup (map snd B) ->
  exists D, NoDup (map snd D) /\ incl (map snd D) (map snd A ++ map snd B) /\ (forall rho, lin rho D = lin rho A - lin rho B) /\
    forall a l, In (a, l) A -> exists a', In (a', l) D /\ ((a' = a /\ ~ In l (map snd B)) \/ exists b, In (b, l) B /\ a' = a - b).
Proof.
  intros NA. induction B as [|[b m] B IH]; intros NB.
  - exists A. splits; auto.
    + rewrite app_nil_r. apply incl_refl.
    + intros rho. cbn. lra.
    + intros a l Hi. exists a. split; auto.
  - cbn [map snd] in NB. inversion NB as [|? ? Nin Nd]; subst. destruct (IH Nd) as (D & ND & ID & VD & CD).
    destruct (classic (In m (map snd D))) as [Hm|Hm].
    + apply in_map_iff in Hm as ([a' m'] & E & Hi). cbn in E. subst m'. apply in_split in Hi as (D1 & D2 & ->).
      exists ((a' - b, m) :: D1 ++ D2).
      assert (P : Permutation (D1 ++ (a', m) :: D2) ((a', m) :: D1 ++ D2)) by (symmetry; apply Permutation_middle).
      assert (ND' : NoDup (map snd ((a', m) :: D1 ++ D2))) by (eapply Permutation_NoDup; [apply Permutation_map; exact P|exact ND]).
      splits.
      * exact ND'.
      * intros x Hx. assert (Hx' : In x (map snd (D1 ++ (a', m) :: D2))).
        { eapply Permutation_in; [symmetry; apply Permutation_map; exact P|]. exact Hx. }
        apply ID in Hx'. apply in_app_iff in Hx' as [?|?]; apply in_app_iff; [left|right; right]; auto.
      * intros rho. specialize (VD rho). rewrite (lin_perm rho _ _ P) in VD. unfold lin in *. cbn [fold_right fst snd] in *. lra.
      * intros a l Hi. destruct (CD a l Hi) as (a2 & Hi2 & Hc). assert (Hi3 : In (a2, l) ((a', m) :: D1 ++ D2)) by (rewrite <- P; auto).
        destruct Hi3 as [E|Hi3].
        -- injection E as -> ->. exists (a2 - b). split; [now left|]. right. exists b. split; [now left|].
           destruct Hc as [[-> _]|(b' & Hb & _)]; auto. exfalso. apply Nin. apply in_map_iff. exists (b', l). auto.
        -- exists a2. split; [now right|]. destruct Hc as [[-> Hn]|(b' & Hb & E)].
           ++ left. split; auto. cbn [map snd]. intros [E|E]; auto. subst l. cbn [map snd] in ND'. inversion ND' as [|? ? Q _]; subst.
              apply Q. apply in_map_iff. exists (a, m). auto.
           ++ right. exists b'. split; auto. now right.
    + exists ((- b, m) :: D). splits.
      * cbn. constructor; auto.
      * cbn [map snd]. intros x [<-|Hx]; [apply in_app_iff; right; now left|]. apply ID in Hx. apply in_app_iff in Hx as [?|?]; apply in_app_iff; [left|right; right]; auto.
      * intros rho. specialize (VD rho). unfold lin in *. cbn [fold_right fst snd] in *. lra.
      * intros a l Hi. destruct (CD a l Hi) as (a2 & Hi2 & Hc). exists a2. split; [now right|]. destruct Hc as [[-> Hn]|(b' & Hb & E)].
        -- left. split; auto. cbn [map snd]. intros [E|E]; auto. subst l. apply Hm. apply in_map_iff. exists (a, m). auto.
        -- right. exists b'. split; auto. now right.
Qed.
Definition real (L : list (Q * list expr)) : list (R * list expr) := map (fun t => (Q2R (fst t), snd t)) L.
Lemma lin_real rho L : lin rho (real L) = lc rho L.
Proof. induction L as [|t L IH]; [reflexivity|]. unfold lin, lc in *. cbn [real map fold_right fst snd]. now rewrite <- IH. Qed.
Lemma nform_incl L M : Forall nterm L -> Forall nterm M -> NoDup (map snd L) -> NoDup (map snd M) ->
  (forall rho, positive rho -> lc rho L = lc rho M) -> incl L M.
Proof.
  intros FL FM NL NM H [a l] Hi.
  assert (SL : forall L, map snd (real L) = map snd L) by (intros L0; unfold real; now rewrite map_map).
  destruct (merge (real L) ltac:(now rewrite SL) (real M) ltac:(now rewrite SL)) as (D & ND & ID & VD & CD).
  assert (Z : Forall (fun t => fst t = 0) D).
  { apply (independent (List.length D)); auto.
    - apply Forall_forall. intros t Ht. assert (Q : In (snd t) (map snd D)) by now apply in_map. apply ID in Q. rewrite !SL in Q.
      rewrite Forall_forall in FL, FM. apply in_app_iff in Q as [Q|Q]; apply in_map_iff in Q as (u & E & Hu); rewrite <- E; [apply (FL u Hu)|apply (FM u Hu)].
    - intros rho P. rewrite VD, !lin_real, H; auto. lra. }
  rewrite Forall_forall in Z, FL, FM. pose proof (FL _ Hi) as (La & Ha & _). cbn [fst snd] in *.
  destruct (CD (Q2R a) l) as (a' & Hd & Hc); [unfold real; apply in_map_iff; exists (a, l); auto|].
  apply Z in Hd. cbn [fst] in Hd. subst a'. destruct Hc as [[E _]|(b & Hb & E)].
  - exfalso. apply Ha. apply Qreals.eqR_Qeq. rewrite <- E. now rewrite RMicromega.Q2R_0.
  - unfold real in Hb. apply in_map_iff in Hb as ([b' l'] & Eb & Hb). cbn in Eb. injection Eb as Eb ->.
    assert (a = b') as ->; auto. pose proof (FM _ Hb) as (Lb & _). apply lowest_eq; auto. apply Qreals.eqR_Qeq. rewrite Eb. lra.
Qed.
Theorem nform_unique p q : nform p -> nform q -> (forall rho, positive rho -> ev rho p = ev rho q) -> p = q.
Proof.
  intros (L & FL & NL & (n & OL) & ->) (M & FM & NM & (m & OM) & ->) H.
  assert (V : forall rho, positive rho -> lc rho L = lc rho M) by (intros rho P; rewrite <- !lc_val; auto).
  assert (P : Permutation L M).
  { apply NoDup_Permutation; eauto using NoDup_map_inv. intros x. split; apply nform_incl; auto. intros. symmetry. auto. }
  f_equal. rewrite <- (rev_involutive (map term L)), <- (rev_involutive (map term M)). f_equal.
  apply (sorted_unique (K c (Nat.max n m))).
  - eapply sorted_fuel; [|exact OL]. lia.
  - eapply sorted_fuel; [|exact OM]. lia.
  - rewrite <- !Permutation_rev. now apply Permutation_map.
  - rewrite <- map_rev. apply distinct_terms. now apply Forall_rev.
Qed.
End Uniq.
