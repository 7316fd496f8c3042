(** Programs with the same declarations, in whatever order, compile alike. *)
From Coq Require Import ZArith String List Bool Permutation.
From Verif Require Import Base GoLang GenSim MemMono GoTypes CompileProofs TextSame.
Import ListNotations.
Open Scope string_scope.
Open Scope list_scope.
Open Scope Z_scope.

Section Same.
Variable camel : string -> string.
Variables types types' : amap (list (string * gtype)).
Variable methods : amap func.
Variables pkg pkg' : list string.
Hypothesis TS : forall x, alookup x types = alookup x types'.
Hypothesis PS : forall x, inb x pkg = inb x pkg'.

Lemma builtin_same : forall G x, builtin pkg G x = builtin pkg' G x.
Proof. intros. unfold builtin. now rewrite PS. Qed.
Lemma typeOk_same : forall g G, typeOk types pkg G g = typeOk types' pkg' G g.
Proof. induction g; intros G; cbn [typeOk]; rewrite ?builtin_same, ?TS, ?IHg; reflexivity. Qed.
Lemma typeE_same : forall e G, typeE types pkg G e = typeE types' pkg' G e.
Proof.
  induction e; intros G; cbn [typeE];
    repeat match goal with H : forall G, typeE types _ G ?y = _ |- _ => rewrite ?(H G); clear H end; rewrite ?builtin_same, ?typeOk_same; try reflexivity.
  destruct (typeE types' pkg' G e) as [[[]| | | |]|]; try reflexivity; rewrite TS; reflexivity.
Qed.
Lemma fits_same : forall G e g, fits types pkg G e g = fits types' pkg' G e g.
Proof. intros. unfold fits. now rewrite typeE_same. Qed.
Lemma placeOf_same : forall G l, placeOf types pkg G l = placeOf types' pkg' G l.
Proof. intros. unfold placeOf. now rewrite typeE_same. Qed.
Lemma assigns_same : forall G l e, assigns types pkg G l e = assigns types' pkg' G l e.
Proof. intros. unfold assigns. rewrite placeOf_same. destruct (placeOf types' pkg' G l); auto using fits_same. Qed.
Lemma callOk_same : forall G o a args, callOk camel types methods pkg G o a args = callOk camel types' methods pkg' G o a args.
Proof.
  intros. unfold callOk. rewrite typeE_same. destruct (typeE types' pkg' G (lexpr o)) as [[[]| | | |]|]; auto. destruct (alookup n methods) as [f|]; auto. rewrite fits_same. f_equal.
  induction (combine args (fparams f)) as [|x l IH]; cbn [forallb]; auto. now rewrite typeE_same, IH.
Qed.
Variable results : gtype * gtype.
Notation check := (checkS camel types methods pkg results).
Notation check' := (checkS camel types' methods pkg' results).
Definition sameS (s : stmt) : Prop := forall G, check G s = check' G s.
Lemma checkS_same : forall s, sameS s.
Proof.
  induction s as [x a|x t|l a|l1 l2 a b|c b IH|b IH|x bd b IH|c b IH|cs IH|a b|x err o a args|err o a args] using stmt_ind'; intros G.
  all: try (cbn [checkS]; rewrite ?typeE_same, ?typeOk_same, ?assigns_same, ?callOk_same, ?fits_same, ?placeOf_same; reflexivity).
  all: assert (B : forall b, Forall sameS b -> forall G,
    (fix checkSs (G : scopes) (ss : list stmt) : option scopes :=
      match ss with
      | [] => Some G
      | s1 :: ss' =>
          match check G s1 with
          | Some G1 => if match s1 with SDecl y _ | SVar y _ | SParseDecl y _ _ _ => usesSs y ss' | _ => true end then checkSs G1 ss' else None
          | None => None
          end
      end) G b =
    (fix checkSs (G : scopes) (ss : list stmt) : option scopes :=
      match ss with
      | [] => Some G
      | s1 :: ss' =>
          match check' G s1 with
          | Some G1 => if match s1 with SDecl y _ | SVar y _ | SParseDecl y _ _ _ => usesSs y ss' | _ => true end then checkSs G1 ss' else None
          | None => None
          end
      end) G b)
   by (clear; induction b as [|s b IHb]; intros F G; [reflexivity|]; inversion F as [|? ? F1 F2]; subst; rewrite (F1 G); destruct (check' G s); auto;
       match goal with |- (if ?c then _ else _) = _ => destruct c end; auto).
  - cbn [checkS]. rewrite typeE_same, (B b IH). reflexivity.
  - cbn [checkS]. rewrite (B b IH). reflexivity.
  - cbn [checkS]. rewrite typeE_same, (B b IH). reflexivity.
  - cbn [checkS]. rewrite typeE_same, (B b IH). reflexivity.
  - cbn [checkS].
    match goal with |- (if _ && ?a then _ else _) = (if _ && ?b then _ else _) => assert (E : a = b) end.
    { induction cs as [|[[e|] b] cs IHc]; [reflexivity| |]; inversion IH as [|? ? F1 F2]; subst; cbn [forallb fst snd] in *; rewrite ?typeE_same, (B b F1), (IHc F2); reflexivity. }
    rewrite E. reflexivity.
Qed.
Lemma checkSs_same : forall ss G, checkSs camel types methods pkg results G ss = checkSs camel types' methods pkg' results G ss.
Proof. induction ss as [|s ss IH]; intros G; cbn [checkSs]; auto. rewrite checkS_same. destruct (check' G s); auto. now rewrite IH. Qed.
End Same.

Lemma inb_perm : forall a b x, Permutation a b -> inb x a = inb x b.
Proof. intros a b x P. unfold inb. induction P; cbn [existsb]; auto; [now rewrite IHP|destruct (String.eqb x y), (String.eqb x x0); auto|congruence]. Qed.
Lemma forallb_perm : forall A (f : A -> bool) a b, Permutation a b -> forallb f a = forallb f b.
Proof. intros A f a b P. induction P; cbn [forallb]; auto; [now rewrite IHP|destruct (f x), (f y); auto|congruence]. Qed.
Lemma forallb_same : forall A (f g : A -> bool) l, (forall x, f x = g x) -> forallb f l = forallb g l.
Proof. intros A f g l H. induction l as [|x l IH]; cbn [forallb]; auto. now rewrite H, IH. Qed.
Lemma distinct_perm : forall a b, Permutation a b -> distinct a = distinct b.
Proof.
  intros a b P. destruct (distinct a) eqn:A, (distinct b) eqn:B; auto.
  - apply distinct_NoDup in A. apply (Permutation_NoDup P) in A. apply distinct_NoDup in A. congruence.
  - apply distinct_NoDup in B. apply (Permutation_NoDup (Permutation_sym P)) in B. apply distinct_NoDup in B. congruence.
Qed.

Theorem compiles_same : forall camel p q, Permutation (ptypes p) (ptypes q) -> (forall x, alookup x (ptypes p) = alookup x (ptypes q)) ->
  pmethods p = pmethods q -> pctors p = pctors q -> compiles camel p = compiles camel q.
Proof.
  intros camel p q P T M C. assert (PN : Permutation (packageNames p) (packageNames q)).
  { unfold packageNames. rewrite C. apply Permutation_app_tail. now apply Permutation_map. }
  assert (PS : forall x, inb x (packageNames p) = inb x (packageNames q)) by (intros; now apply inb_perm).
  assert (TO : forall G g, typeOk (ptypes p) (packageNames p) G g = typeOk (ptypes q) (packageNames q) G g) by (intros; now apply typeOk_same).
  assert (F : forall extra f res, funcOk camel p extra f res = funcOk camel q extra f res).
  { intros extra f res. unfold funcOk. rewrite M, (checkSs_same camel (ptypes p) (ptypes q) (pmethods q) _ _ T PS). cbn [forallb]. rewrite !TO.
    rewrite (forallb_same _ (fun x => match alookup (camel x) (ptypes p) with Some _ => true | None => false end) (fun x => match alookup (camel x) (ptypes q) with Some _ => true | None => false end)) by (intros; now rewrite T). reflexivity. }
  unfold compiles. rewrite (distinct_perm _ _ PN), (forallb_perm _ goName _ _ PN), M, C, (forallb_perm _ _ _ _ P).
  rewrite (forallb_same _ (typeDeclOk p) (typeDeclOk q)). 2:{ intros [n fs]. unfold typeDeclOk. f_equal. apply forallb_same. intros. apply TO. }
  rewrite (forallb_same _ (methodOk camel p) (methodOk camel q)). 2:{ intros m. unfold methodOk. now rewrite T, F. }
  rewrite (forallb_same _ (ctorOk camel p) (ctorOk camel q)). 2:{ intros m. unfold ctorOk. now rewrite F. }
  reflexivity.
Qed.
