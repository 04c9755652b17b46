(** C118: replacing markers; C119: the glossary; C120: looking up strings. *)
From Coq Require Import String Ascii.
From Verif Require Import Prelude Entity_Model Unicode_Model Xml_Model Xml_Spec Xml_Attr Xml_Sound Xml_Complete Xstr_Model Xstr_Spec Xstr_Proofs Xstr_Look.
From Coq Require Import List ZArith Lia.
Import ListNotations.
Local Open Scope nat_scope.
Ltac Zify.zify_post_hook ::= idtac.

Lemma under_range g id : under e_id e_value g id = map e_value (range_for_key g id).
Proof.
  unfold under, range_for_key. f_equal. induction g as [|e g IH]; [reflexivity|]. cbn. rewrite IH. destruct (list_eq_dec N.eq_dec (e_id e) id), (range_equalP (e_id e) id); congruence || reflexivity.
Qed.
Lemma replace_id_run ni g id texts iss : Forall2 content_of texts iss ->
  exists given, denoting (flat_map markers_in iss) given /\
    (forall f out, (exists o, out = Done o) \/ out = No_candidate -> replace_id ni f g id texts = out -> run ni f given (under e_id e_value g id) (-1)%Z [] = out) /\
    exists F, forall f, F <= f -> replace_id ni f g id texts = run ni f given (under e_id e_value g id) (-1)%Z [].
Proof.
  intros K. destruct (add_markers_ok ni texts iss K [] [] (Forall2_nil _)) as (given & D & U & F & H). exists given. split; [exact D|]. rewrite under_range. split.
  - intros f out O. unfold replace_id. destruct (add_markers ni f [] texts) as [g'|o] eqn:E.
    + rewrite (U f g' E). auto.
    + intros ->. exfalso. assert (X : forall texts g0 o, add_markers ni f g0 texts = inr o -> (exists o', o = Done o') \/ o = No_candidate -> False).
      { clear. induction texts as [|t texts IH]; intros g0 o E K; cbn [add_markers] in E; [discriminate|]. unfold add_marker in E. destruct (parse_content _ _ _ _ _ _) as [[] s| | |]; [eauto|..]; cbn [failed] in E; destruct K as [[o' ->]| ->]; discriminate. }
      exact (X _ _ _ E O).
  - exists F. intros f L. unfold replace_id. now rewrite (H f L).
Qed.

(** ** C118: xstring_replace of an id answers with the first of the texts stored under the id that has the most markers, among
    those that have only markers which are given; each marker is replaced by what is given for it.  It throws when there is no such
    text.  Either way each of the texts can be read. *)
Theorem C118_replacement :
  forall ni g id texts iss, Forall2 content_of texts iss ->
  let ms := flat_map markers_in iss in let cs := under e_id e_value g id in
  (forall o, (exists fuel, replace_id ni fuel g id texts = Done o) <-> Forall (readable ni ms) cs /\ best ni ms cs o) /\
  ((exists fuel, replace_id ni fuel g id texts = No_candidate) <-> Forall (readable ni ms) cs /\ forall c o n, In c cs -> ~ filled ni ms c o n).
Proof.
  intros ni g id texts iss K ms cs. destruct (replace_id_run ni g id texts iss K) as (given & D & B & F & H).
  destruct (run_iff ni ms given D cs (fun f => F <= f) (ex_intro _ F (fun f L => L))) as [R1 R2]. destruct (run_iff ni ms given D cs (fun _ => True) (ex_intro _ 0 (fun f _ => Logic.I))) as [T1 T2].
  split; [intros o|]; split.
  - intros (f & E). apply T1. exists f. split; [exact Logic.I|]. apply B; eauto.
  - intros X. apply R1 in X as (f & L & E). exists f. rewrite (H f L). exact E.
  - intros (f & E). apply T2. exists f. split; [exact Logic.I|]. apply B; auto.
  - intros X. apply R2 in X as (f & L & E). exists f. rewrite (H f L). exact E.
Qed.
(** xstring_replace of a text does that with the id of the last xstr element in it *)
Theorem C118_replacement_by_text :
  forall ni g xstr is texts iss, content_of xstr is -> Forall2 content_of texts iss ->
  let ms := flat_map markers_in iss in let cs := under e_id e_value g (last_id is) in
  (forall o, (exists fuel, replace ni fuel g xstr texts = Done o) <-> Forall (readable ni ms) cs /\ best ni ms cs o) /\
  ((exists fuel, replace ni fuel g xstr texts = No_candidate) <-> Forall (readable ni ms) cs /\ forall c o n, In c cs -> ~ filled ni ms c o n).
Proof.
  intros ni g xstr is texts iss X K ms cs. destruct (harvested_ok ni xstr is X) as [U (F1 & H1)].
  assert (Y : forall f out, (exists o, out = Done o) \/ out = No_candidate -> replace ni f g xstr texts = out -> replace_id ni f g (last_id is) texts = out).
  { intros f out O E. unfold replace in E. destruct (harvested ni f xstr) as [id|o] eqn:Q; [now rewrite <- (U f id Q)|]. exfalso. unfold harvested in Q. destruct (parse_content _ _ _ _ _ _) as [[] s| | |]; try discriminate; cbn [failed] in Q; destruct O as [[o' ->]| ->]; congruence. }
  destruct (replace_id_run ni g (last_id is) texts iss K) as (given & D & B & F & H).
  destruct (run_iff ni ms given D cs (fun f => F1 + F <= f) (ex_intro _ (F1 + F) (fun f L => L))) as [R1 R2]. destruct (C118_replacement ni g (last_id is) texts iss K) as [T1 T2].
  assert (Z : forall f, F1 + F <= f -> replace ni f g xstr texts = run ni f given cs (-1)%Z []) by (intros f L; unfold replace; rewrite (H1 f) by lia; apply H; lia).
  split; [intros o|]; split.
  - intros (f & E). apply T1. exists f. apply Y; eauto.
  - intros Q. apply R1 in Q as (f & L & E). exists f. rewrite (Z f L). exact E.
  - intros (f & E). apply T2. exists f. apply Y; auto.
  - intros Q. apply R2 in Q as (f & L & E). exists f. rewrite (Z f L). exact E.
Qed.
(** the result is unique *)
Theorem C118_one_result : forall ni g id texts f f' o o', replace_id ni f g id texts = Done o -> replace_id ni f' g id texts = Done o' -> o = o'.
Proof.
  intros ni g id texts f f' o o' E E'.
  assert (A : forall f texts g0 given, add_markers ni f g0 texts = inl given -> forall f' given', add_markers ni f' g0 texts = inl given' -> given = given').
  { clear. intros f. induction texts as [|t texts IH]; intros g0 given E f' given' E'; cbn [add_markers] in *; [congruence|]. unfold add_marker in *.
    destruct (parse_content ni handled marker_answer f t fresh) as [[] s| | |] eqn:P; try discriminate. destruct (parse_content ni handled marker_answer f' t fresh) as [[] s'| | |] eqn:P'; try discriminate.
    apply parse_one in P, P'. destruct (parse_unique _ _ _ _ _ _ _ _ P P') as [_ X]. rewrite X in E. eauto. }
  assert (B : forall given cs m r o o', run ni f given cs m r = Done o -> run ni f' given cs m r = Done o' -> o = o').
  { clear. intros given. induction cs as [|c cs IH]; intros m r o o' E E'; cbn [run] in *; [destruct (m <? 0)%Z; congruence|].
    destruct (parse_content ni handled (candidate_answer given) f c fresh) as [[] s| | |] eqn:P; try discriminate. destruct (parse_content ni handled (candidate_answer given) f' c fresh) as [[] s'| | |] eqn:P'; try discriminate.
    apply parse_one in P, P'. destruct (parse_unique _ _ _ _ _ _ _ _ P P') as [X Y]. rewrite X, Y in E. destruct (m <? _)%Z; eauto. }
  unfold replace_id in *.
  assert (C : forall f g0 x, add_markers ni f g0 texts = inr x -> forall o, x <> Done o).
  { clear. intros f. induction texts as [|t texts IH]; intros g0 x E o; cbn [add_markers] in E; [discriminate|]. unfold add_marker in E. destruct (parse_content _ _ _ _ _ _) as [[] s| | |]; [eapply IH; eauto|..]; cbn [failed] in E; congruence. }
  destruct (add_markers ni f [] texts) as [given|x] eqn:Q; [|destruct (C _ _ _ Q o E)]. destruct (add_markers ni f' [] texts) as [given'|x] eqn:Q'; [|destruct (C _ _ _ Q' o' E')].
  rewrite (A _ _ _ _ Q _ _ Q') in E. eauto.
Qed.

(** *** cases *)
Fixpoint quoted (s : string) : bytes :=
  match s with EmptyString => [] | String c s' => (if Ascii.eqb c "`" then 34%N else N_of_ascii c) :: quoted s' end.
Definition g0 : list entry_t :=
  [Stored (quoted "hi") [] (quoted "hello") 0; Stored (quoted "hi") [] (quoted "hello <marker n='1'/>") 1;
   Stored (quoted "hi") [] (quoted "hello <marker n='1'/> and <marker n='2'/>") 2; Stored (quoted "bye") [] (quoted "goodbye<br/>") 3].
Example C118_case : replace [] 200 g0 (quoted "<xstr id='hi'/>") [quoted "<marker n='1'>you</marker>"] = Done (quoted "hello you") /\
  replace_id [] 200 g0 (quoted "hi") [quoted "<marker n='1'>you</marker>"; quoted "<b><marker n='2'>me</marker></b>"] = Done (quoted "hello you and me") /\
  replace_id [] 200 g0 (quoted "none") [] = No_candidate.
Proof. repeat split; vm_compute; reflexivity. Qed.
(** the first xstr element's id is meant to be taken, but each xstr element replaces it *)
Theorem C118_first_id_refuted :
  exists is, content_of (quoted "<xstr id='hi'/><xstr id='bye'/>") is /\ first_id is = quoted "hi" /\ last_id is = quoted "bye" /\
    replace [] 200 g0 (quoted "<xstr id='hi'/><xstr id='bye'/>") [] = Done (quoted "goodbye").
Proof.
  set (at1 := fun v => [Attr [32%N] (quoted "id") [] [] 39%N (quoted v)]).
  exists [Empty [] (quoted "xstr") (at1 "hi"%string) []; Empty [] (quoted "xstr") (at1 "bye"%string) []]. split; [|split; [reflexivity|split; [reflexivity|vm_compute; reflexivity]]].
  exists []. split; [reflexivity|]. split; [|left; reflexivity].
  assert (A : forall v, Forall plain (quoted v) -> ~ In 39%N (quoted v) -> item_ok (Empty [] (quoted "xstr") (at1 v) []) []).
  { intros v P Q. cbn [item_ok]. unfold tag_ok. split; [constructor|]. split; [split; [|repeat constructor]; unfold name_start, name_byte, name_start; cbn; lia|]. split; [|split; [discriminate|constructor]].
    constructor; [|constructor]. unfold attr_ok. cbn. split; [repeat constructor; right; reflexivity|]. split; [split; [|repeat constructor]; unfold name_start, name_byte, name_start; lia|]. split; [constructor|]. split; [constructor|]. split; [right; reflexivity|]. auto. }
  cbn [items_ok]. split; [apply (A "hi"%string)|split; [apply (A "bye"%string)|exact Logic.I]]; cbn; try (repeat constructor; discriminate); intuition discriminate.
Qed.
(** empty elements of other names are lost from the text, though elements that are not empty are kept *)
Theorem C118_empty_elements_lost_refuted :
  replace_id [] 200 g0 (quoted "bye") [] = Done (quoted "goodbye") /\
  replace_id [] 200 [Stored (quoted "x") [] (quoted "a<b>c</b>d<br/>e") 0] (quoted "x") [] = Done (quoted "a<b>c</b>de").
Proof. split; vm_compute; reflexivity. Qed.

(** ** C120: xstring takes the tags away, and leaves the markers as they are.  It does so whatever the glossary, and whatever the
    context's attributes. Left out: elements whose content begins with a comment. *)
Theorem C120_strips_partial :
  forall ni g merged x is, content_of x is -> Forall neat is ->
  exists F, forall fuel, F <= fuel -> xstring ni fuel g merged x = Done (flat_map (stripped ni) is).
Proof. intros ni g merged x is C N. exact (strips ni g merged x is C N). Qed.
(** the fuel does not matter to what it answers *)
Theorem C120_one_result : forall ni g merged x f f' o o', xstring ni f g merged x = Done o -> xstring ni f' g merged x = Done o' -> o = o'.
Proof.
  intros ni g merged x f f' o o' E E'. unfold xstring in *.
  destruct (parse_content ni _ (element_answer g merged) f x fresh) as [[] s| | |] eqn:P; try discriminate. destruct (parse_content ni _ (element_answer g merged) f' x fresh) as [[] s'| | |] eqn:P'; try discriminate.
  apply parse_one in P, P'. destruct (parse_unique _ _ _ _ _ _ _ _ P P') as [X _]. congruence.
Qed.
Example C120_case : xstring [] 200 g0 (fun a => a) (quoted "a <b>bold <xstr id='hi'>dflt <marker n='1'/></xstr></b> z") = Done (quoted "a bold dflt <marker n='1'/> z").
Proof. vm_compute; reflexivity. Qed.
(** no string is ever looked up: the default is answered though the glossary has a string with the id and the attributes *)
Theorem C120_glossary_never_consulted_refuted :
  exists g v, glossary_parse [] Nat.eqb 200 (quoted "<xstr id='hi'>hello</xstr>") = Some g /\ under e_id e_value g (quoted "hi") = [v] /\ v = quoted "hello" /\
    xstring [] 200 g (fun a => a) (quoted "<xstr id='hi'>dflt</xstr>") = Done (quoted "dflt").
Proof. eexists _, _. split; [vm_compute; reflexivity|]. repeat split; vm_compute; reflexivity. Qed.

(** ** C119: a glossary's strings are stored, in the order they are written in, each under its id; but strings that
    repeat one that is stored may be left out, which makes no difference to the replacements. *)
Theorem C119_glossary_partial :
  forall ni same_place l, glossary_ok l -> exists F g,
  (forall fuel, F <= fuel -> glossary_parse ni same_place fuel (glossary_text l) = Some g) /\
  Kept [] (flat_map strings (map fst l)) (map (fun e => (e_id e, e_value e)) g).
Proof. intros ni sp l G. exact (glossary ni sp l G). Qed.
(** each string of the glossary, and nothing else, is there under its id *)
Theorem C119_found :
  forall ni same_place l, glossary_ok l -> exists F g,
  (forall fuel, F <= fuel -> glossary_parse ni same_place fuel (glossary_text l) = Some g) /\
  forall id v, In v (under e_id e_value g id) <-> In (id, v) (flat_map strings (map fst l)).
Proof.
  intros ni sp l G. destruct (glossary ni sp l G) as (F & g & H & K). exists F, g. split; [exact H|]. intros id v.
  assert (X : In v (under e_id e_value g id) <-> In (id, v) (map pair_of g)).
  { unfold under. rewrite in_map_iff, in_map_iff. unfold pair_of. split.
    - intros (e & <- & I0). apply filter_In in I0 as [I0 E]. exists e. split; [|exact I0]. destruct (list_eq_dec N.eq_dec (e_id e) id); congruence.
    - intros (e & E & I0). exists e. split; [congruence|]. apply filter_In. split; [exact I0|]. destruct (list_eq_dec N.eq_dec (e_id e) id); congruence. }
  rewrite X. split; intros I0; [exact (kept_from _ _ _ K _ I0)|]. destruct (kept_in _ _ _ K _ I0) as [[] | I1]. exact I1.
Qed.
(** what is left out makes no difference: the best replacement (see C118) among what is stored under an id is the best among all that is
    written with it *)
Theorem C119_best_replacement :
  forall ni same_place l, glossary_ok l -> exists F g,
  (forall fuel, F <= fuel -> glossary_parse ni same_place fuel (glossary_text l) = Some g) /\
  forall id ms o, best ni ms (under e_id e_value g id) o <-> best ni ms (under fst snd (flat_map strings (map fst l)) id) o.
Proof.
  intros ni sp l G. destruct (glossary ni sp l G) as (F & g & H & K). exists F, g. split; [exact H|]. intros id ms o.
  rewrite <- under_pairs. symmetry. apply kept_best. exact (kept_under fst snd [] _ _ id K).
Qed.
Definition lists_text := quoted "<xstr id='hi'>hello</xstr> then <list><xstr id='bye' n='2'>good<br/>bye</xstr><marker><xstr id='no'/></marker></list>".
Example C119_case : exists g, glossary_parse [] Nat.eqb 400 lists_text = Some g /\
  map (fun e => (e_id e, e_value e)) g = [(quoted "hi", quoted "hello"); (quoted "bye", quoted "good<br/>bye")].
Proof. eexists. split; vm_compute; reflexivity. Qed.
(** the same string written twice is stored twice: whether it is stored already is asked of where the texts are, not of the texts *)
Theorem C119_repeated_refuted :
  exists g, glossary_parse [] Nat.eqb 400 (quoted "<xstr id='hi'>hello</xstr><xstr id='hi'>hello</xstr>") = Some g /\
    under e_id e_value g (quoted "hi") = [quoted "hello"; quoted "hello"].
Proof. eexists. split; vm_compute; reflexivity. Qed.
(** a text and a glossary that meet the hypotheses *)
Definition id_hi := [Attr [32%N] (quoted "id") [] [] 39%N (quoted "hi")].
Definition hello := Elem [] (quoted "xstr") id_hi [] [Chars (quoted "hello "); Empty [] (quoted "marker") [] []] [] [].
Lemma hello_ok next : item_ok hello next.
Proof.
  apply item_ok_elem. split; [|split; [constructor|split; [constructor|]]].
  - unfold tag_ok. split; [constructor|]. split; [split; [|repeat constructor]; unfold name_start, name_byte, name_start; cbn; lia|]. split; [|split; [discriminate|constructor]].
    constructor; [|constructor]. unfold attr_ok. cbn. split; [repeat constructor; right; reflexivity|]. split; [split; [|repeat constructor]; unfold name_start, name_byte, name_start; lia|]. split; [constructor|]. split; [constructor|]. split; [right; reflexivity|].
    split; [repeat constructor; discriminate|intuition discriminate].
  - cbn [items_ok]. split; [|split; [|exact Logic.I]].
    + unfold item_ok, chars_ok. split; [discriminate|]. split; [cbn; repeat constructor; discriminate|]. split; [intros [P _]; apply P; reflexivity|]. split; [intros P; discriminate P|discriminate].
    + change (tag_ok [] (quoted "marker") [] []). unfold tag_ok. split; [constructor|]. split; [|split; [constructor|split; [exact Logic.I|constructor]]].
      change (quoted "marker") with [109; 97; 114; 107; 101; 114]%N. split; [unfold name_start; lia|]. repeat (constructor; [unfold name_byte, name_start; lia|]). constructor.
Qed.
Example C119_meets : glossary_ok [(hello, quoted " then "); (hello, [])] /\
  glossary_text [(hello, quoted " then "); (hello, [])] = quoted "<xstr id='hi'>hello <marker/></xstr> then <xstr id='hi'>hello <marker/></xstr>" /\
  flat_map strings (map fst [(hello, quoted " then "); (hello, [])]) = [(quoted "hi", quoted "hello <marker/>"); (quoted "hi", quoted "hello <marker/>")].
Proof.
  split; [|split; reflexivity]. cbn [glossary_ok]. split; [discriminate|]. split; [cbn; tauto|]. split; [apply hello_ok|]. split.
  - right. unfold chars_ok. split; [discriminate|]. split; [cbn; repeat constructor; discriminate|]. split; [intros [P _]; apply P; reflexivity|]. split; [intros P; discriminate P|discriminate].
  - split; [discriminate|]. split; [cbn; tauto|]. split; [apply hello_ok|]. split; [now left|exact Logic.I].
Qed.
Example C120_meets : content_of (quoted "<xstr id='hi'>hello <marker/></xstr>") [hello] /\ Forall neat [hello] /\ flat_map (stripped []) [hello] = quoted "hello <marker/>".
Proof.
  split; [|split; [|reflexivity]].
  - exists []. split; [reflexivity|]. split; [|left; reflexivity]. cbn [items_ok]. split; [apply hello_ok|exact Logic.I].
  - constructor; [cbn; tauto|constructor].
Qed.
