(** Proofs about the converter. *)
From Coq Require Import Reals String Ascii ZArith Bool Arith List Lia Permutation.
From Verif Require Import Res ResP SMap Vec Sva JointM MultiBodyM KinM GraphM ParserM YamlM UConvM Spec SpecGraph SpecParser SpecDoc SpecUConv ParserRotP ParserExP DocP DocReadP DocYamlP DocUrdfP DocWholeP DocRtP DocExP.
Import ListNotations.
Open Scope nat_scope.
Open Scope string_scope.

(** ** Strings. *)
Lemma app_nil s : s ++ "" = s. Proof. induction s; cbn; congruence. Qed.
Lemma app_ass a b c : (a ++ b) ++ c = a ++ b ++ c. Proof. induction a; cbn; congruence. Qed.
Lemma app_len a b : String.length (a ++ b) = String.length a + String.length b. Proof. induction a; cbn; auto. Qed.
Lemma app_split x : forall y u v, x ++ y = u ++ v -> String.length x <= String.length u -> exists w, u = x ++ w.
Proof. induction x as [|c x IH]; intros y u v E L; [now exists u|]. destruct u as [|d u]; [cbn in L; lia|]. cbn in E. injection E as -> E. destruct (IH y u v E) as (w & ->); [cbn in L; lia|]. now exists w. Qed.
Lemma prefix_iff m : forall s, prefix m s = true <-> exists r, s = m ++ r.
Proof.
  induction m as [|c m IH]; intros s; [split; [intros _; now exists s|now destruct s]|]. destruct s as [|d s]; cbn [prefix]; [split; [discriminate|intros (r & E); discriminate]|].
  destruct (ascii_dec c d) as [->|N]; [rewrite IH; split; intros (r & E); exists r; [cbn; now rewrite E|now injection E]|split; [discriminate|intros (r & E); injection E; congruence]].
Qed.
Lemma get_app a c b : String.get (String.length a) (a ++ String c b) = Some c. Proof. induction a; cbn; auto. Qed.
Definition rob : string := "robot".
Lemma cont_cons c s : contains (String c s) rob <-> prefix rob (String c s) = true \/ contains s rob.
Proof.
  split.
  - intros ([|d a] & b & E); [left; apply prefix_iff; now exists b|]. right. injection E as -> E. now exists a, b.
  - intros [H|(a & b & ->)]; [apply prefix_iff in H as (r & ->); now exists "", r|]. now exists (String c a), b.
Qed.
Lemma cont_len s : contains s rob -> 5 <= String.length s.
Proof. intros (a & b & ->). rewrite !app_len. cbn [rob String.length]. lia. Qed.
Lemma first_index a : forall b, ~ contains (a ++ "robo") rob -> String.index 0 rob (a ++ rob ++ b) = Some (String.length a).
Proof.
  induction a as [|c a IH]; intros b H; [now destruct b|].
  change (String c a ++ rob ++ b) with (String c (a ++ rob ++ b)). change (String c a ++ "robo") with (String c (a ++ "robo")) in H. cbn [String.index].
  assert (P : prefix rob (String c (a ++ rob ++ b)) = false).
  { destruct (prefix rob _) eqn:E; [|reflexivity]. exfalso. apply H. apply cont_cons. left. apply prefix_iff in E as (r & E). apply prefix_iff.
    apply (app_split rob r (String c (a ++ "robo")) (String "t" b)); [|cbn [String.length rob]; rewrite app_len; cbn [String.length]; lia].
    rewrite <- E. cbn. rewrite app_ass. reflexivity. }
  rewrite P, IH; [reflexivity|]. intro C. apply H. apply cont_cons. now right.
Qed.
Lemma robot_cases s : ~ contains s rob \/ exists a b, first_robot s a b.
Proof.
  induction s as [|c s IH]; [left; intro H; apply cont_len in H; cbn in H; lia|].
  destruct (prefix rob (String c s)) eqn:P.
  - right. apply prefix_iff in P as (r & ->). exists "", r. split; [reflexivity|]. intro H. apply cont_len in H. cbn in H. lia.
  - destruct IH as [N|(a & b & -> & N)]; [left; intro H; apply cont_cons in H as [H|H]; [congruence|auto]|]. right. exists (String c a), b. split; [reflexivity|].
    intro H. apply cont_cons in H as [H|H]; [|auto]. apply prefix_iff in H as (r & E). change (String c (a ++ "robo") = rob ++ r) in E.
    assert (T : prefix rob (String c (a ++ rob ++ b)) = true); [|unfold rob in *; congruence]. apply prefix_iff. exists (r ++ String "t" b). rewrite <- (app_ass rob r), <- E. cbn. now rewrite app_ass.
Qed.
Lemma none_index s : ~ contains s rob -> String.index 0 rob s = None.
Proof.
  induction s as [|c s IH]; [reflexivity|]. intro H. cbn [String.index]. destruct (prefix rob (String c s)) eqn:P; [exfalso; apply H; apply cont_cons; now left|]. rewrite IH; [reflexivity|]. intro C. apply H. apply cont_cons. now right.
Qed.
Lemma snoc_cases a : a = "" \/ exists a' c, a = a' ++ String c "".
Proof. induction a as [|c a IH]; [now left|]. right. destruct IH as [->|(a' & d & ->)]; [now exists "", c|now exists (String c a'), d]. Qed.

Definition kind_spec (a b : string) (k : kind) : Prop :=
  match k with
  | KUrdf => exists a', a = a' ++ "<"
  | KYaml => ~ (exists a', a = a' ++ "<") /\ exists b', b = ":" ++ b'
  | KNeither => ~ (exists a', a = a' ++ "<") /\ ~ (exists b', b = ":" ++ b')
  | KNone => False
  end.
Lemma detect_first s a b : first_robot s a b -> kind_spec a b (detect s).
Proof.
  intros (-> & N). unfold detect. change (String.index 0 "robot" (a ++ "robot" ++ b)) with (String.index 0 rob (a ++ rob ++ b)). rewrite first_index by exact N.
  assert (A : (Nat.ltb 0 (String.length a) && char_is (a ++ "robot" ++ b) (String.length a - 1) "<"%char)%bool = true <-> exists a', a = a' ++ "<").
  { destruct (snoc_cases a) as [->|(a' & c & ->)]; [split; [discriminate|intros ([|x y] & E); discriminate]|].
    rewrite app_len. cbn [String.length]. replace (String.length a' + 1 - 1) with (String.length a') by lia. unfold char_is. rewrite app_ass. change (String c "" ++ "robot" ++ b) with (String c ("robot" ++ b)). rewrite get_app. replace (Nat.ltb 0 _) with true by (symmetry; apply Nat.ltb_lt; lia). cbn [andb].
    rewrite Ascii.eqb_eq. split; [intros ->; now exists a'|]. intros (a2 & E). pose proof (f_equal (String.get (String.length a')) E) as G. rewrite get_app in G.
    assert (L : String.length a' = String.length a2) by (apply (f_equal String.length) in E; rewrite !app_len in E; cbn in E; lia). rewrite L, get_app in G. congruence. }
  assert (B : (Nat.ltb (String.length a + 5) (String.length (a ++ "robot" ++ b)) && char_is (a ++ "robot" ++ b) (String.length a + 5) ":"%char)%bool = true <-> exists b', b = ":" ++ b').
  { rewrite !app_len. cbn [String.length]. destruct b as [|c b]; [replace (Nat.ltb _ _) with false by (symmetry; apply Nat.ltb_ge; cbn; lia); split; [discriminate|intros (b' & E); discriminate]|].
    replace (Nat.ltb _ _) with true by (symmetry; apply Nat.ltb_lt; cbn; lia). cbn [andb]. unfold char_is. replace (a ++ "robot" ++ String c b) with ((a ++ "robot") ++ String c b) by now rewrite app_ass.
    replace (String.length a + 5) with (String.length (a ++ "robot")) by now rewrite app_len. rewrite get_app, Ascii.eqb_eq. split; [intros ->; now exists b|]. intros (b' & E). now injection E. }
  destruct (_ && _)%bool; [now apply A|]. destruct (_ && _)%bool; cbn [kind_spec]; (split; [intro H; apply A in H; discriminate|]); [now apply B|]. intro H. apply B in H. discriminate.
Qed.
Lemma detect_none s : ~ contains s rob -> detect s = KNone.
Proof. intro H. unfold detect. change "robot" with rob. now rewrite none_index. Qed.
Lemma convert_iff fuel g E c t : convert fuel g E c = Ok (Some t) <-> converted fuel g E c t.
Proof.
  unfold convert. destruct (robot_cases c) as [N|(a & b & F)].
  - rewrite detect_none by auto. split; [discriminate|]. intros [(a & b & r & d & ((-> & _) & _))|(a & b & r & d & ((-> & _) & _))]; exfalso; apply N; eexists _, _; reflexivity.
  - pose proof (detect_first _ _ _ F) as K. split.
    + destruct (detect c); cbn [kind_spec] in K; try discriminate.
      * destruct K as (a' & ->). destruct (from_urdf _ _ _ _) as [r|e| |] eqn:E1; try discriminate. cbn [bind]. destruct (to_yaml _ r) as [d|e| |] eqn:E2; try discriminate. cbn [bind]. intro H. injection H as <-. left. now exists a', b, r, d.
      * destruct K as (KA & b' & ->). destruct (from_yaml _ _ _ _) as [r|e| |] eqn:E1; try discriminate. cbn [bind]. destruct (to_urdf _ r) as [d|e| |] eqn:E2; try discriminate. cbn [bind]. intro H. injection H as <-. right. now exists a, b', r, d.
    + intros [(a' & b' & r & d & F' & E1 & E2 & ->)|(a' & b' & r & d & F' & NA & E1 & E2 & ->)]; apply detect_first in F'; destruct (detect c); cbn [kind_spec] in F'; try contradiction.
      * now rewrite E1; cbn [bind]; rewrite E2.
      * exfalso. destruct F' as (F' & _). apply F'. now exists a'.
      * exfalso. destruct F' as (F' & _). apply F'. now exists a'.
      * now rewrite E1; cbn [bind]; rewrite E2.
      * exfalso. destruct F' as (_ & F'). apply F'. now exists b'.
Qed.

(** ** Lines. *)
Lemma whole_cons c s : s <> "" -> (whole_lines (String c s) <-> whole_lines s).
Proof.
  intro N. split; intros [E|(a & E)]; [discriminate| |contradiction|right; exists (String c a); now rewrite E].
  destruct a as [|d a]; [injection E; congruence|]. injection E as -> ->. right. now exists a.
Qed.
Lemma whole_app l s : s <> "" -> (whole_lines (l ++ s) <-> whole_lines s).
Proof. intro N. induction l as [|c l IH]; [reflexivity|]. cbn. rewrite whole_cons; [exact IH|]. destruct l, s; cbn; congruence. Qed.
Lemma lines_closed s : forall line, (forall a b, line <> a ++ String nl b) ->
  (whole_lines (line ++ s) -> get_lines line s = line ++ s) /\ (~ whole_lines (line ++ s) -> get_lines line s = (line ++ s) ++ String nl "").
Proof.
  induction s as [|c s IH]; intros line NL; cbn [get_lines].
  - rewrite app_nil. destruct (String.eqb_spec line "") as [->|NE]; [split; [reflexivity|intro H; exfalso; apply H; now left]|]. split; [|reflexivity]. intros [->|(a & ->)]; [congruence|]. exfalso. now apply (NL a "").
  - destruct (Ascii.eqb_spec c nl) as [->|NC].
    + destruct (IH "") as (I1 & I2); [intros [|x a] b; discriminate|]. cbn [append] in I1, I2. rewrite whole_app by discriminate.
      destruct (String.eqb_spec s "") as [->|NE].
      * split; [intros _; reflexivity|]. intro H. exfalso. apply H. right. now exists "".
      * rewrite whole_cons by auto. split; intro H; [now rewrite I1|]. rewrite I2 by auto. now rewrite app_ass.
    + specialize (IH (line ++ String c "")). rewrite app_ass in IH. cbn [append] in IH. apply IH. intros a b E. destruct (snoc_cases b) as [->|(b' & d & ->)].
      * assert (G := f_equal (String.get (String.length line)) E). assert (L : String.length line = String.length a) by (apply (f_equal String.length) in E; rewrite !app_len in E; cbn in E; lia). rewrite get_app, L, get_app in G. congruence.
      * change (String nl (b' ++ String d "")) with (String nl b' ++ String d "") in E. rewrite <- app_ass in E. apply (NL a b').
        destruct (app_split line (String c "") (a ++ String nl b') (String d "") E) as (w & EW); [apply (f_equal String.length) in E; rewrite !app_len in E; rewrite !app_len; cbn [String.length] in E |- *; lia|].
        assert (w = ""); [|subst w; now rewrite app_nil in EW]. apply (f_equal String.length) in E. rewrite EW in E. rewrite !app_len in E. cbn in E. destruct w; [reflexivity|cbn in E; lia].
Qed.
Lemma content_of s : (whole_lines s -> getContent true s = s) /\ (~ whole_lines s -> getContent true s = s ++ String nl "").
Proof. apply (lines_closed s ""). intros [|x a] b; discriminate. Qed.
Lemma content_nil s : getContent true s = "" <-> s = "".
Proof.
  destruct (content_of s) as (H1 & H2). split; [|intros ->; reflexivity]. intro E. destruct (snoc_cases s) as [->|(a & c & ->)]; [reflexivity|].
  destruct (Ascii.eqb_spec c nl) as [->|N]; [rewrite H1 in E; [exact E|right; now exists a]|]. rewrite H2 in E; [destruct a; discriminate|].
  intros [E'|(a' & E')]; [destruct a; discriminate|]. assert (L : String.length a = String.length a') by (apply (f_equal String.length) in E'; rewrite !app_len in E'; cbn in E'; lia).
  apply (f_equal (String.get (String.length a))) in E'. rewrite get_app, L, get_app in E'. congruence.
Qed.

(** ** main. *)
Lemma stdin_cases E : (no_data E -> getContent (e_avail E) (e_stdin E) = "") /\
  (e_avail E = true -> e_stdin E <> "" -> getContent (e_avail E) (e_stdin E) = getContent true (e_stdin E) /\ (String.length (getContent true (e_stdin E)) =? 0)%nat = false).
Proof.
  split; [intros [->| ->]; [reflexivity|now destruct (e_avail E)]|]. intros -> NE. split; [reflexivity|]. apply Nat.eqb_neq. intro L. apply NE. apply content_nil. destruct (getContent true (e_stdin E)); [reflexivity|discriminate].
Qed.
Section Main.
Context (fuel : nat) (g : Garbage) (E : Env).
Lemma main_pipe : e_avail E = true -> e_stdin E <> "" -> forall t, conv_main fuel g E [] = Ok (Print t) <-> converted fuel g E (getContent true (e_stdin E)) t.
Proof.
  intros A N t. rewrite <- convert_iff. destruct (stdin_cases E) as (_ & S2). destruct (S2 A N) as (S3 & S4). unfold conv_main. cbn [List.length Nat.eqb Nat.ltb Nat.leb andb orb negb]. rewrite S3, S4. cbn [andb orb negb].
  destruct (convert _ _ _ _) as [[u|]|e| |]; cbn [bind]; split; intro H; try discriminate; injection H as <-; reflexivity.
Qed.
Lemma help_no a : no_help [a] -> (String.eqb a "-h" || String.eqb a "--help")%bool = false.
Proof. intros (N1 & N2). destruct (String.eqb_spec a "-h") as [->|]; [congruence|]. destruct (String.eqb_spec a "--help") as [->|]; [congruence|reflexivity]. Qed.
Lemma main_read f s : no_data E -> no_help [f] -> e_file E f = Some s -> forall t, conv_main fuel g E [f] = Ok (Print t) <-> converted fuel g E (getContent true s) t.
Proof.
  intros ND NH EF t. rewrite <- convert_iff. destruct (stdin_cases E) as (S1 & _). unfold conv_main. cbn [List.length Nat.eqb Nat.ltb Nat.leb andb orb negb nth]. rewrite (help_no f NH), (S1 ND). cbn [String.length Nat.eqb andb orb negb]. rewrite EF.
  destruct (convert _ _ _ _) as [[u|]|e| |]; cbn [bind]; split; intro H; try discriminate; injection H as <-; reflexivity.
Qed.
Lemma main_save o : e_avail E = true -> e_stdin E <> "" -> no_help [o] -> e_can_write E o = true -> forall p t, conv_main fuel g E [o] = Ok (Save p t) <-> p = o /\ converted fuel g E (getContent true (e_stdin E)) t.
Proof.
  intros A N NH CW p t. rewrite <- convert_iff. destruct (stdin_cases E) as (_ & S2). destruct (S2 A N) as (S3 & S4). unfold conv_main. cbn [List.length Nat.eqb Nat.ltb Nat.leb andb orb negb nth Nat.sub]. rewrite (help_no o NH), S3, S4. cbn [andb orb negb]. rewrite CW.
  destruct (convert _ _ _ _) as [[u|]|e| |]; cbn [bind]; split; intro H; try discriminate; try (destruct H; discriminate); [injection H as <- <-; split; reflexivity|destruct H as (-> & H); injection H as <-; reflexivity].
Qed.
Lemma main_files i o s : no_data E -> e_file E i = Some s -> e_can_write E o = true -> forall p t, conv_main fuel g E [i; o] = Ok (Save p t) <-> p = o /\ converted fuel g E (getContent true s) t.
Proof.
  intros ND EF CW p t. rewrite <- convert_iff. destruct (stdin_cases E) as (S1 & _). unfold conv_main. cbn [List.length Nat.eqb Nat.ltb Nat.leb andb orb negb nth Nat.sub]. rewrite (S1 ND). cbn [String.length Nat.eqb andb orb negb]. rewrite EF, CW.
  destruct (convert _ _ _ _) as [[u|]|e| |]; cbn [bind]; split; intro H; try discriminate; try (destruct H; discriminate); [injection H as <- <-; split; reflexivity|destruct H as (-> & H); injection H as <-; reflexivity].
Qed.
Lemma main_ignored i o : e_avail E = true -> e_stdin E <> "" -> conv_main fuel g E [i; o] = conv_main fuel g E [].
Proof. intros A N. destruct (stdin_cases E) as (_ & S2). destruct (S2 A N) as (S3 & S4). unfold conv_main. cbn [List.length Nat.eqb Nat.ltb Nat.leb andb orb negb nth Nat.sub]. rewrite S3, S4. reflexivity. Qed.
End Main.
