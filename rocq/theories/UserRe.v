(** * Regular expressions of programs: Patterns (ptypes.py:174-271)

    Pip hands the text of a Pattern to Python's module [re].  This file is a
    model of that module for a part of its syntax: characters, sets, [.], [^],
    [$], escapes for classes and anchors, groups, references to groups,
    alternatives and greedy and lazy repetition, with the flags IGNORECASE,
    MULTILINE, DOTALL and ASCII.  Everything else (look-around, named groups,
    inline flags, possessive repetition, octal and hexadecimal escapes) and
    every syntax error is [None], which the operators turn into
    [Unmodelled].

    Python's engine: alternatives are tried in order, repetition prefers more
    (lazy: fewer) rounds, a group keeps the text of its last round, and groups
    are restored when a choice is undone. *)

From Coq Require Import String List NArith ZArith Bool Arith.
From Verif Require Import PyStr PyNum.
Import ListNotations.
Local Open Scope string_scope.
Local Open Scope list_scope.

(** ** Flags (Python's re.IGNORECASE, MULTILINE, DOTALL, ASCII) *)

Definition fl_ignorecase (f : N) : bool := N.testbit f 1.
Definition fl_multiline (f : N) : bool := N.testbit f 3.
Definition fl_dotall (f : N) : bool := N.testbit f 4.
Definition fl_ascii (f : N) : bool := N.testbit f 8.

(** ** Characters *)

(** Ranges of code points above 127 with [chr(c).isalnum()] (Unicode 14, CPython
    3.11). *)
Definition alnum_table : list (N * N) :=
  [(170, 170); (178, 179); (181, 181); (185, 186); (188, 190); (192, 214);
   (216, 246); (248, 705); (710, 721); (736, 740); (748, 748); (750, 750);
   (880, 884); (886, 887); (890, 893); (895, 895); (902, 902); (904, 906);
   (908, 908); (910, 929); (931, 1013); (1015, 1153); (1162, 1327);
   (1329, 1366); (1369, 1369); (1376, 1416); (1488, 1514); (1519, 1522);
   (1568, 1610); (1632, 1641); (1646, 1647); (1649, 1747); (1749, 1749);
   (1765, 1766); (1774, 1788); (1791, 1791); (1808, 1808); (1810, 1839);
   (1869, 1957); (1969, 1969); (1984, 2026); (2036, 2037); (2042, 2042);
   (2048, 2069); (2074, 2074); (2084, 2084); (2088, 2088); (2112, 2136);
   (2144, 2154); (2160, 2183); (2185, 2190); (2208, 2249); (2308, 2361);
   (2365, 2365); (2384, 2384); (2392, 2401); (2406, 2415); (2417, 2432);
   (2437, 2444); (2447, 2448); (2451, 2472); (2474, 2480); (2482, 2482);
   (2486, 2489); (2493, 2493); (2510, 2510); (2524, 2525); (2527, 2529);
   (2534, 2545); (2548, 2553); (2556, 2556); (2565, 2570); (2575, 2576);
   (2579, 2600); (2602, 2608); (2610, 2611); (2613, 2614); (2616, 2617);
   (2649, 2652); (2654, 2654); (2662, 2671); (2674, 2676); (2693, 2701);
   (2703, 2705); (2707, 2728); (2730, 2736); (2738, 2739); (2741, 2745);
   (2749, 2749); (2768, 2768); (2784, 2785); (2790, 2799); (2809, 2809);
   (2821, 2828); (2831, 2832); (2835, 2856); (2858, 2864); (2866, 2867);
   (2869, 2873); (2877, 2877); (2908, 2909); (2911, 2913); (2918, 2927);
   (2929, 2935); (2947, 2947); (2949, 2954); (2958, 2960); (2962, 2965);
   (2969, 2970); (2972, 2972); (2974, 2975); (2979, 2980); (2984, 2986);
   (2990, 3001); (3024, 3024); (3046, 3058); (3077, 3084); (3086, 3088);
   (3090, 3112); (3114, 3129); (3133, 3133); (3160, 3162); (3165, 3165);
   (3168, 3169); (3174, 3183); (3192, 3198); (3200, 3200); (3205, 3212);
   (3214, 3216); (3218, 3240); (3242, 3251); (3253, 3257); (3261, 3261);
   (3293, 3294); (3296, 3297); (3302, 3311); (3313, 3314); (3332, 3340);
   (3342, 3344); (3346, 3386); (3389, 3389); (3406, 3406); (3412, 3414);
   (3416, 3425); (3430, 3448); (3450, 3455); (3461, 3478); (3482, 3505);
   (3507, 3515); (3517, 3517); (3520, 3526); (3558, 3567); (3585, 3632);
   (3634, 3635); (3648, 3654); (3664, 3673); (3713, 3714); (3716, 3716);
   (3718, 3722); (3724, 3747); (3749, 3749); (3751, 3760); (3762, 3763);
   (3773, 3773); (3776, 3780); (3782, 3782); (3792, 3801); (3804, 3807);
   (3840, 3840); (3872, 3891); (3904, 3911); (3913, 3948); (3976, 3980);
   (4096, 4138); (4159, 4169); (4176, 4181); (4186, 4189); (4193, 4193);
   (4197, 4198); (4206, 4208); (4213, 4225); (4238, 4238); (4240, 4249);
   (4256, 4293); (4295, 4295); (4301, 4301); (4304, 4346); (4348, 4680);
   (4682, 4685); (4688, 4694); (4696, 4696); (4698, 4701); (4704, 4744);
   (4746, 4749); (4752, 4784); (4786, 4789); (4792, 4798); (4800, 4800);
   (4802, 4805); (4808, 4822); (4824, 4880); (4882, 4885); (4888, 4954);
   (4969, 4988); (4992, 5007); (5024, 5109); (5112, 5117); (5121, 5740);
   (5743, 5759); (5761, 5786); (5792, 5866); (5870, 5880); (5888, 5905);
   (5919, 5937); (5952, 5969); (5984, 5996); (5998, 6000); (6016, 6067);
   (6103, 6103); (6108, 6108); (6112, 6121); (6128, 6137); (6160, 6169);
   (6176, 6264); (6272, 6276); (6279, 6312); (6314, 6314); (6320, 6389);
   (6400, 6430); (6470, 6509); (6512, 6516); (6528, 6571); (6576, 6601);
   (6608, 6618); (6656, 6678); (6688, 6740); (6784, 6793); (6800, 6809);
   (6823, 6823); (6917, 6963); (6981, 6988); (6992, 7001); (7043, 7072);
   (7086, 7141); (7168, 7203); (7232, 7241); (7245, 7293); (7296, 7304);
   (7312, 7354); (7357, 7359); (7401, 7404); (7406, 7411); (7413, 7414);
   (7418, 7418); (7424, 7615); (7680, 7957); (7960, 7965); (7968, 8005);
   (8008, 8013); (8016, 8023); (8025, 8025); (8027, 8027); (8029, 8029);
   (8031, 8061); (8064, 8116); (8118, 8124); (8126, 8126); (8130, 8132);
   (8134, 8140); (8144, 8147); (8150, 8155); (8160, 8172); (8178, 8180);
   (8182, 8188); (8304, 8305); (8308, 8313); (8319, 8329); (8336, 8348);
   (8450, 8450); (8455, 8455); (8458, 8467); (8469, 8469); (8473, 8477);
   (8484, 8484); (8486, 8486); (8488, 8488); (8490, 8493); (8495, 8505);
   (8508, 8511); (8517, 8521); (8526, 8526); (8528, 8585); (9312, 9371);
   (9450, 9471); (10102, 10131); (11264, 11492); (11499, 11502);
   (11506, 11507); (11517, 11517); (11520, 11557); (11559, 11559);
   (11565, 11565); (11568, 11623); (11631, 11631); (11648, 11670);
   (11680, 11686); (11688, 11694); (11696, 11702); (11704, 11710);
   (11712, 11718); (11720, 11726); (11728, 11734); (11736, 11742);
   (11823, 11823); (12293, 12295); (12321, 12329); (12337, 12341);
   (12344, 12348); (12353, 12438); (12445, 12447); (12449, 12538);
   (12540, 12543); (12549, 12591); (12593, 12686); (12690, 12693);
   (12704, 12735); (12784, 12799); (12832, 12841); (12872, 12879);
   (12881, 12895); (12928, 12937); (12977, 12991); (13312, 19903);
   (19968, 42124); (42192, 42237); (42240, 42508); (42512, 42539);
   (42560, 42606); (42623, 42653); (42656, 42735); (42775, 42783);
   (42786, 42888); (42891, 42954); (42960, 42961); (42963, 42963);
   (42965, 42969); (42994, 43009); (43011, 43013); (43015, 43018);
   (43020, 43042); (43056, 43061); (43072, 43123); (43138, 43187);
   (43216, 43225); (43250, 43255); (43259, 43259); (43261, 43262);
   (43264, 43301); (43312, 43334); (43360, 43388); (43396, 43442);
   (43471, 43481); (43488, 43492); (43494, 43518); (43520, 43560);
   (43584, 43586); (43588, 43595); (43600, 43609); (43616, 43638);
   (43642, 43642); (43646, 43695); (43697, 43697); (43701, 43702);
   (43705, 43709); (43712, 43712); (43714, 43714); (43739, 43741);
   (43744, 43754); (43762, 43764); (43777, 43782); (43785, 43790);
   (43793, 43798); (43808, 43814); (43816, 43822); (43824, 43866);
   (43868, 43881); (43888, 44002); (44016, 44025); (44032, 55203);
   (55216, 55238); (55243, 55291); (63744, 64109); (64112, 64217);
   (64256, 64262); (64275, 64279); (64285, 64285); (64287, 64296);
   (64298, 64310); (64312, 64316); (64318, 64318); (64320, 64321);
   (64323, 64324); (64326, 64433); (64467, 64829); (64848, 64911);
   (64914, 64967); (65008, 65019); (65136, 65140); (65142, 65276);
   (65296, 65305); (65313, 65338); (65345, 65370); (65382, 65470);
   (65474, 65479); (65482, 65487); (65490, 65495); (65498, 65500);
   (65536, 65547); (65549, 65574); (65576, 65594); (65596, 65597);
   (65599, 65613); (65616, 65629); (65664, 65786); (65799, 65843);
   (65856, 65912); (65930, 65931); (66176, 66204); (66208, 66256);
   (66273, 66299); (66304, 66339); (66349, 66378); (66384, 66421);
   (66432, 66461); (66464, 66499); (66504, 66511); (66513, 66517);
   (66560, 66717); (66720, 66729); (66736, 66771); (66776, 66811);
   (66816, 66855); (66864, 66915); (66928, 66938); (66940, 66954);
   (66956, 66962); (66964, 66965); (66967, 66977); (66979, 66993);
   (66995, 67001); (67003, 67004); (67072, 67382); (67392, 67413);
   (67424, 67431); (67456, 67461); (67463, 67504); (67506, 67514);
   (67584, 67589); (67592, 67592); (67594, 67637); (67639, 67640);
   (67644, 67644); (67647, 67669); (67672, 67702); (67705, 67742);
   (67751, 67759); (67808, 67826); (67828, 67829); (67835, 67867);
   (67872, 67897); (67968, 68023); (68028, 68047); (68050, 68096);
   (68112, 68115); (68117, 68119); (68121, 68149); (68160, 68168);
   (68192, 68222); (68224, 68255); (68288, 68295); (68297, 68324);
   (68331, 68335); (68352, 68405); (68416, 68437); (68440, 68466);
   (68472, 68497); (68521, 68527); (68608, 68680); (68736, 68786);
   (68800, 68850); (68858, 68899); (68912, 68921); (69216, 69246);
   (69248, 69289); (69296, 69297); (69376, 69415); (69424, 69445);
   (69457, 69460); (69488, 69505); (69552, 69579); (69600, 69622);
   (69635, 69687); (69714, 69743); (69745, 69746); (69749, 69749);
   (69763, 69807); (69840, 69864); (69872, 69881); (69891, 69926);
   (69942, 69951); (69956, 69956); (69959, 69959); (69968, 70002);
   (70006, 70006); (70019, 70066); (70081, 70084); (70096, 70106);
   (70108, 70108); (70113, 70132); (70144, 70161); (70163, 70187);
   (70272, 70278); (70280, 70280); (70282, 70285); (70287, 70301);
   (70303, 70312); (70320, 70366); (70384, 70393); (70405, 70412);
   (70415, 70416); (70419, 70440); (70442, 70448); (70450, 70451);
   (70453, 70457); (70461, 70461); (70480, 70480); (70493, 70497);
   (70656, 70708); (70727, 70730); (70736, 70745); (70751, 70753);
   (70784, 70831); (70852, 70853); (70855, 70855); (70864, 70873);
   (71040, 71086); (71128, 71131); (71168, 71215); (71236, 71236);
   (71248, 71257); (71296, 71338); (71352, 71352); (71360, 71369);
   (71424, 71450); (71472, 71483); (71488, 71494); (71680, 71723);
   (71840, 71922); (71935, 71942); (71945, 71945); (71948, 71955);
   (71957, 71958); (71960, 71983); (71999, 71999); (72001, 72001);
   (72016, 72025); (72096, 72103); (72106, 72144); (72161, 72161);
   (72163, 72163); (72192, 72192); (72203, 72242); (72250, 72250);
   (72272, 72272); (72284, 72329); (72349, 72349); (72368, 72440);
   (72704, 72712); (72714, 72750); (72768, 72768); (72784, 72812);
   (72818, 72847); (72960, 72966); (72968, 72969); (72971, 73008);
   (73030, 73030); (73040, 73049); (73056, 73061); (73063, 73064);
   (73066, 73097); (73112, 73112); (73120, 73129); (73440, 73458);
   (73648, 73648); (73664, 73684); (73728, 74649); (74752, 74862);
   (74880, 75075); (77712, 77808); (77824, 78894); (82944, 83526);
   (92160, 92728); (92736, 92766); (92768, 92777); (92784, 92862);
   (92864, 92873); (92880, 92909); (92928, 92975); (92992, 92995);
   (93008, 93017); (93019, 93025); (93027, 93047); (93053, 93071);
   (93760, 93846); (93952, 94026); (94032, 94032); (94099, 94111);
   (94176, 94177); (94179, 94179); (94208, 100343); (100352, 101589);
   (101632, 101640); (110576, 110579); (110581, 110587); (110589, 110590);
   (110592, 110882); (110928, 110930); (110948, 110951); (110960, 111355);
   (113664, 113770); (113776, 113788); (113792, 113800); (113808, 113817);
   (119520, 119539); (119648, 119672); (119808, 119892); (119894, 119964);
   (119966, 119967); (119970, 119970); (119973, 119974); (119977, 119980);
   (119982, 119993); (119995, 119995); (119997, 120003); (120005, 120069);
   (120071, 120074); (120077, 120084); (120086, 120092); (120094, 120121);
   (120123, 120126); (120128, 120132); (120134, 120134); (120138, 120144);
   (120146, 120485); (120488, 120512); (120514, 120538); (120540, 120570);
   (120572, 120596); (120598, 120628); (120630, 120654); (120656, 120686);
   (120688, 120712); (120714, 120744); (120746, 120770); (120772, 120779);
   (120782, 120831); (122624, 122654); (123136, 123180); (123191, 123197);
   (123200, 123209); (123214, 123214); (123536, 123565); (123584, 123627);
   (123632, 123641); (124896, 124902); (124904, 124907); (124909, 124910);
   (124912, 124926); (124928, 125124); (125127, 125135); (125184, 125251);
   (125259, 125259); (125264, 125273); (126065, 126123); (126125, 126127);
   (126129, 126132); (126209, 126253); (126255, 126269); (126464, 126467);
   (126469, 126495); (126497, 126498); (126500, 126500); (126503, 126503);
   (126505, 126514); (126516, 126519); (126521, 126521); (126523, 126523);
   (126530, 126530); (126535, 126535); (126537, 126537); (126539, 126539);
   (126541, 126543); (126545, 126546); (126548, 126548); (126551, 126551);
   (126553, 126553); (126555, 126555); (126557, 126557); (126559, 126559);
   (126561, 126562); (126564, 126564); (126567, 126570); (126572, 126578);
   (126580, 126583); (126585, 126588); (126590, 126590); (126592, 126601);
   (126603, 126619); (126625, 126627); (126629, 126633); (126635, 126651);
   (127232, 127244); (130032, 130041); (131072, 173791); (173824, 177976);
   (177984, 178205); (178208, 183969); (183984, 191456); (194560, 195101);
   (196608, 201546)]%N.

Definition ascii_alnum (c : char) : bool := is_upper c || is_lower c || is_ascii_digit c.
Definition is_ascii (c : char) : bool := N.ltb c 128.
(** [\w]. *)
Definition is_word (f : N) (c : char) : bool :=
  N.eqb c 95 ||
  if is_ascii c then ascii_alnum c
  else negb (fl_ascii f) && existsb (fun '(a, b) => N.leb a c && N.leb c b) alnum_table.
(** [\d] and [\s]. *)
Definition re_digit (f : N) (c : char) : bool :=
  if fl_ascii f then is_ascii_digit c else is_digit c.
Definition re_space (f : N) (c : char) : bool :=
  if fl_ascii f then existsb (N.eqb c) [9; 10; 11; 12; 13; 32]%N else is_space c.

Definition lower_ascii (c : char) : char := if is_upper c then (c + 32)%N else c.
Definition upper_ascii (c : char) : char := if is_lower c then (c - 32)%N else c.
(** A class under IGNORECASE. *)
Definition fold_case (f : N) (p : char -> bool) (c : char) : bool :=
  if fl_ignorecase f then p (lower_ascii c) || p (upper_ascii c) else p c.

(** ** Syntax trees *)

Inductive rx : Type :=
| XEps
| XChr (p : char -> bool)
| XSeq (a b : rx)
| XAlt (a b : rx)
| XRep (greedy : bool) (lo : nat) (hi : option nat) (a : rx)
| XGrp (n : nat) (a : rx)
| XRef (n : nat)
| XAt (p : option char -> str -> bool).   (* the character before, the text after *)

(** ** Matching *)

(** Where the engine is: the character before, the text from here on, the
    position, and the groups with their positions. *)
Record mstate : Type := mkms
  { ms_prev : option char; ms_rest : str; ms_pos : nat;
    ms_caps : list (nat * (nat * nat)) }.

Fixpoint cap (n : nat) (l : list (nat * (nat * nat))) : option (nat * nat) :=
  match l with
  | [] => None
  | (m, p) :: l' => if Nat.eqb n m then Some p else cap n l'
  end.
Definition set_cap (n a b : nat) (s : mstate) : mstate :=
  mkms (ms_prev s) (ms_rest s) (ms_pos s) ((n, (a, b)) :: ms_caps s).
Definition advance (c : char) (r : str) (s : mstate) : mstate :=
  mkms (Some c) r (S (ms_pos s)) (ms_caps s).

(** [t[a:b]]. *)
Definition span (t : str) (a b : nat) : str := firstn (b - a) (skipn a t).

(** Matching a text, character by character up to the equivalence [eq]. *)
Fixpoint eat (eq : char -> char -> bool) (t : str) (s : mstate) : option mstate :=
  match t with
  | [] => Some s
  | c :: t' => match ms_rest s with
               | d :: r => if eq c d then eat eq t' (advance d r s) else None
               | [] => None
               end
  end.
Definition same_char (f : N) (c d : char) : bool :=
  if fl_ignorecase f then N.eqb (lower_ascii c) (lower_ascii d) else N.eqb c d.

Definition dec (left : option nat) : option nat := option_map pred left.
Definition none_left (left : option nat) : bool :=
  match left with Some O => true | _ => false end.
Definition at_pos (last : option nat) (s : mstate) : bool :=
  match last with Some p => Nat.eqb p (ms_pos s) | None => false end.

Section Match.
  Context {X : Type}.
  Variable f : N.
  Variable subject : str.

  (** The first result of [k] on the matches of [r] at [s], in the order of
      the engine.  Repetition: [lo] rounds, then rounds that are not tried
      where the round before them started (SRE's MAX_UNTIL and MIN_UNTIL). *)
  Fixpoint xmatch (r : rx) (s : mstate) (k : mstate -> option X) {struct r} : option X :=
    match r with
    | XEps => k s
    | XChr p => match ms_rest s with
                | c :: r' => if p c then k (advance c r' s) else None
                | [] => None
                end
    | XSeq a b => xmatch a s (fun s' => xmatch b s' k)
    | XAlt a b => match xmatch a s k with
                  | Some x => Some x
                  | None => xmatch b s k
                  end
    | XRep greedy lo hi a =>
      let more :=
        fix more (n : nat) (left : option nat) (last : option nat) (s : mstate) : option X :=
          match n with
          | O => k s
          | S n' =>
            let again (_ : unit) :=
              if none_left left || at_pos last s then None
              else xmatch a s (fun s' => more n' (dec left) (Some (ms_pos s)) s') in
            if greedy
            then match again tt with Some x => Some x | None => k s end
            else match k s with Some x => Some x | None => again tt end
          end in
      (fix need (m : nat) (s : mstate) : option X :=
         match m with
         | O => more (S (S (length (ms_rest s)))) (option_map (fun h => h - lo) hi) None s
         | S m' => xmatch a s (fun s' => need m' s')
         end) lo s
    | XGrp n a => xmatch a s (fun s' => k (set_cap n (ms_pos s) (ms_pos s') s'))
    | XRef n => match cap n (ms_caps s) with
                | Some (a, b) => match eat (same_char f) (span subject a b) s with
                                 | Some s' => k s'
                                 | None => None
                                 end
                | None => None
                end
    | XAt p => if p (ms_prev s) (ms_rest s) then k s else None
    end.
End Match.

(** A match: where it starts and ends, and its groups. *)
Record found : Type := mkfound
  { fd_start : nat; fd_end : nat; fd_caps : list (nat * (nat * nat)) }.

(** A match that starts here; [ok] restricts where it may end. *)
Definition match_here (f : N) (r : rx) (t : str) (ok : mstate -> bool)
           (prev : option char) (rest : str) (pos : nat) : option found :=
  xmatch f t r (mkms prev rest pos [])
         (fun s => if ok s then Some (mkfound pos (ms_pos s) (ms_caps s)) else None).

(** [re.search] from a position on: the first place with a match. *)
Fixpoint search_from (f : N) (r : rx) (t : str) (ok : mstate -> bool)
         (prev : option char) (rest : str) (pos : nat) : option found :=
  match match_here f r t ok prev rest pos with
  | Some m => Some m
  | None => match rest with
            | [] => None
            | c :: rest' => search_from f r t ok (Some c) rest' (S pos)
            end
  end.
Definition prev_at (t : str) (pos : nat) : option char :=
  match pos with O => None | S p => nth_error t p end.
Definition search (f : N) (r : rx) (t : str) : option found :=
  search_from f r t (fun _ => true) None t 0.
(** [re.fullmatch]. *)
Definition fullmatch (f : N) (r : rx) (t : str) : option found :=
  match_here f r t (fun s => match ms_rest s with [] => true | _ => false end) None t 0.

(** [re.finditer] (and the matches of [re.sub] and [re.split]): after an empty
    match the next one must not be empty at the same place. *)
Fixpoint find_matches (n : nat) (f : N) (r : rx) (t : str) (empty_before : bool) (pos : nat)
  : list found :=
  match n with
  | O => []
  | S n' =>
    match search_from f r t (fun s => negb (empty_before && Nat.eqb (ms_pos s) pos))
                      (prev_at t pos) (skipn pos t) pos with
    | None => []
    | Some m => m :: find_matches n' f r t (Nat.eqb (fd_start m) (fd_end m)) (fd_end m)
    end
  end.
Definition matches (f : N) (r : rx) (t : str) : list found :=
  find_matches (2 * length t + 2) f r t false 0.

(** The text of a group. *)
Definition group_text (t : str) (m : found) (n : nat) : option str :=
  option_map (fun '(a, b) => span t a b) (cap n (fd_caps m)).
Definition match_text (t : str) (m : found) : str := span t (fd_start m) (fd_end m).

(** ** Syntax *)

(** The state of the parser: the number of groups so far, and those that are
    closed. *)
Definition pstate : Type := (nat * list nat)%type.

Definition is_ascii_letter (c : char) : bool := is_upper c || is_lower c.

(** Escapes for single characters that are letters. *)
Definition letter_escape (c : char) : option char :=
  if N.eqb c 110 then Some 10%N           (* \n *)
  else if N.eqb c 116 then Some 9%N       (* \t *)
  else if N.eqb c 114 then Some 13%N      (* \r *)
  else if N.eqb c 102 then Some 12%N      (* \f *)
  else if N.eqb c 118 then Some 11%N      (* \v *)
  else if N.eqb c 97 then Some 7%N        (* \a *)
  else None.
Definition class_escape (f : N) (c : char) : option (char -> bool) :=
  if N.eqb c 100 then Some (re_digit f)
  else if N.eqb c 68 then Some (fun x => negb (re_digit f x))
  else if N.eqb c 115 then Some (re_space f)
  else if N.eqb c 83 then Some (fun x => negb (re_space f x))
  else if N.eqb c 119 then Some (is_word f)
  else if N.eqb c 87 then Some (fun x => negb (is_word f x))
  else None.
Definition word_at (f : N) (c : option char) : bool :=
  match c with Some c => is_word f c | None => false end.
Definition boundary (f : N) (p : option char) (r : str) : bool :=
  xorb (word_at f p) (word_at f (hd_error r)).
(** Nowhere in the empty text (CPython before 3.14). *)
Definition inside (f : N) (p : option char) (r : str) : bool :=
  match p, r with
  | None, [] => false
  | _, _ => negb (boundary f p r)
  end.
Definition anchor_escape (f : N) (c : char) : option (option char -> str -> bool) :=
  if N.eqb c 98 then Some (boundary f)                              (* \b *)
  else if N.eqb c 66 then Some (inside f)                           (* \B *)
  else if N.eqb c 65 then Some (fun p _ => match p with None => true | _ => false end)    (* \A *)
  else if N.eqb c 90 then Some (fun _ r => match r with [] => true | _ => false end)      (* \Z *)
  else None.
Definition at_start (f : N) (p : option char) (_ : str) : bool :=
  match p with
  | None => true
  | Some c => fl_multiline f && N.eqb c 10
  end.
Definition at_end (f : N) (_ : option char) (r : str) : bool :=
  match r with
  | [] => true
  | c :: r' => N.eqb c 10 && (fl_multiline f || match r' with [] => true | _ => false end)
  end.
Definition any_char (f : N) (c : char) : bool := fl_dotall f || negb (N.eqb c 10).
(** One character. *)
Definition XLit (f : N) (c : char) : rx := XChr (fold_case f (N.eqb c)).

(** A decimal number. *)
Fixpoint digits_from (acc : nat) (s : str) : nat * str :=
  match s with
  | c :: s' => if is_ascii_digit c then digits_from (10 * acc + (N.to_nat c - 48)) s' else (acc, s)
  | [] => (acc, s)
  end.
Definition starts_digit (s : str) : bool :=
  match s with c :: _ => is_ascii_digit c | [] => false end.

(** What follows an item: [Some (greedy, lo, hi)], or [None] for no
    repetition.  A brace that is no repetition is outside of the modelled
    syntax. *)
Definition lazy_mark (lo : nat) (hi : option nat) (s : str)
  : option (option (bool * nat * option nat) * str) :=
  let done greedy (s : str) :=
    match s with
    | c :: _ => if existsb (N.eqb c) (s_ "*+?{") then None
                else Some (Some (greedy, lo, hi), s)
    | [] => Some (Some (greedy, lo, hi), s)
    end in
  match s with
  | 63%N :: s' => done false s'
  | _ => done true s
  end.
Definition repetition (s : str) : option (option (bool * nat * option nat) * str) :=
  match s with
  | 42%N :: s' => lazy_mark 0 None s'
  | 43%N :: s' => lazy_mark 1 None s'
  | 63%N :: s' => lazy_mark 0 (Some 1) s'
  | 123%N :: s' =>
    if starts_digit s' || match s' with 44%N :: _ => true | _ => false end
    then let '(lo, s1) := digits_from 0 s' in
         match s1 with
         | 125%N :: s2 => lazy_mark lo (Some lo) s2
         | 44%N :: s2 =>
           let '(hi, s3) := digits_from 0 s2 in
           match s3 with
           | 125%N :: s4 =>
             if starts_digit s2
             then if Nat.ltb hi lo then None else lazy_mark lo (Some hi) s4
             else lazy_mark lo None s4
           | _ => None
           end
         | _ => None
         end
    else None
  | _ => Some (None, s)
  end.

(** A member of a set: one character or a class. *)
Definition set_member (f : N) (s : str) : option ((char + (char -> bool)) * str) :=
  match s with
  | 92%N :: c :: s' =>
    match class_escape f c with
    | Some p => Some (inr p, s')
    | None => match letter_escape c with
              | Some d => Some (inl d, s')
              | None => if N.eqb c 98 then Some (inl 8%N, s')
                        else if ascii_alnum c then None else Some (inl c, s')
              end
    end
  | 92%N :: [] => None
  | c :: s' => Some (inl c, s')
  | [] => None
  end.
(** The members up to the closing bracket; [first]: a bracket is a member. *)
Fixpoint set_members (n : nat) (f : N) (first : bool) (s : str) : option ((char -> bool) * str) :=
  match n with
  | O => None
  | S n' =>
    match s with
    | [] => None
    | c0 :: s0 =>
      if N.eqb c0 93 && negb first then Some (fun _ => false, s0)
      else
        match set_member f s with
        | None => None
        | Some (a, s1) =>
          let single :=
            match set_members n' f false s1 with
            | Some (p, s') =>
              Some (match a with
                    | inl c => fun x => N.eqb c x || p x
                    | inr q => fun x => q x || p x
                    end, s')
            | None => None
            end in
          match s1 with
          | 45%N :: c2 :: s2 =>
            if N.eqb c2 93 then single
            else match a, set_member f (c2 :: s2) with
                 | inl lo, Some (inl hi, s3) =>
                   if N.ltb hi lo then None
                   else match set_members n' f false s3 with
                        | Some (p, s') =>
                          Some (fun x => (N.leb lo x && N.leb x hi) || p x, s')
                        | None => None
                        end
                 | _, _ => None
                 end
          | _ => single
          end
        end
    end
  end.
(** After the opening bracket. *)
Definition parse_set (f : N) (s : str) : option (rx * str) :=
  let '(neg, s') := match s with 94%N :: s' => (true, s') | _ => (false, s) end in
  match set_members (S (length s')) f true s' with
  | Some (p, rest) => Some (XChr (fun c => xorb neg (fold_case f p c)), rest)
  | None => None
  end.

(** After a backslash outside of sets. *)
Definition parse_escape (f : N) (st : pstate) (s : str) : option (rx * str) :=
  match s with
  | [] => None
  | c :: s' =>
    if is_ascii_digit c
    then if N.eqb c 48 then None
         else let one := N.to_nat c - 48 in
              let '(n, rest) :=
                match s' with
                | d :: s'' => if is_ascii_digit d then (10 * one + (N.to_nat d - 48), s'')
                              else (one, s')
                | [] => (one, s')
                end in
              let octal :=
                match s' with
                | d :: e :: _ => N.ltb c 56 && is_ascii_digit d && N.ltb d 56
                                 && is_ascii_digit e && N.ltb e 56
                | _ => false
                end in
              if negb octal && existsb (Nat.eqb n) (snd st) then Some (XRef n, rest) else None
    else match class_escape f c with
         | Some p => Some (XChr (fold_case f p), s')
         | None => match anchor_escape f c with
                   | Some p => Some (XAt p, s')
                   | None => match letter_escape c with
                             | Some d => Some (XLit f d, s')
                             | None => if is_ascii_letter c then None else Some (XLit f c, s')
                             end
                   end
         end
  end.

Definition group_name : str := s_ "?P<all>".

(** The expression up to the next bracket that is not its own, and the rest. *)
Fixpoint parse_alt (n : nat) (f : N) (st : pstate) (s : str) : option (rx * pstate * str) :=
  match n with
  | O => None
  | S n' =>
    match parse_seq n' f st s with
    | Some (a, st1, 124%N :: s1) =>
      match parse_alt n' f st1 s1 with
      | Some (b, st2, s2) => Some (XAlt a b, st2, s2)
      | None => None
      end
    | r => r
    end
  end
with parse_seq (n : nat) (f : N) (st : pstate) (s : str) : option (rx * pstate * str) :=
  match n with
  | O => None
  | S n' =>
    match s with
    | [] | 41%N :: _ | 124%N :: _ => Some (XEps, st, s)
    | _ =>
      match parse_atom n' f st s with
      | None => None
      | Some (a, st1, s1) =>
        match repetition s1 with
        | None => None
        | Some (None, s2) =>
          match parse_seq n' f st1 s2 with
          | Some (b, st2, s3) => Some (XSeq a b, st2, s3)
          | None => None
          end
        | Some (Some (greedy, lo, hi), s2) =>
          match a with
          | XAt _ => None
          | _ =>
            match parse_seq n' f st1 s2 with
            | Some (b, st2, s3) => Some (XSeq (XRep greedy lo hi a) b, st2, s3)
            | None => None
            end
          end
        end
      end
    end
  end
with parse_atom (n : nat) (f : N) (st : pstate) (s : str) : option (rx * pstate * str) :=
  match n with
  | O => None
  | S n' =>
    match s with
    | [] => None
    | c :: s' =>
      if N.eqb c 40 then                                            (* ( *)
        if startswith (s_ "?:") s' then
          match parse_alt n' f st (skipn 2 s') with
          | Some (a, st1, 41%N :: s1) => Some (a, st1, s1)
          | _ => None
          end
        else
          let body :=
            if startswith group_name s' then Some (skipn (length group_name) s')
            else match s' with 63%N :: _ => None | _ => Some s' end in
          match body with
          | None => None
          | Some s1 =>
            let g := S (fst st) in
            match parse_alt n' f (g, snd st) s1 with
            | Some (a, (m, cl), 41%N :: s2) => Some (XGrp g a, (m, g :: cl), s2)
            | _ => None
            end
          end
      else if N.eqb c 91 then                                       (* [ *)
        match parse_set f s' with Some (a, s1) => Some (a, st, s1) | None => None end
      else if N.eqb c 92 then                                       (* \ *)
        match parse_escape f st s' with Some (a, s1) => Some (a, st, s1) | None => None end
      else if N.eqb c 46 then Some (XChr (any_char f), st, s')      (* . *)
      else if N.eqb c 94 then Some (XAt (at_start f), st, s')       (* ^ *)
      else if N.eqb c 36 then Some (XAt (at_end f), st, s')         (* $ *)
      else if existsb (N.eqb c) (s_ "*+?{") then None
      else Some (XLit f c, st, s')
    end
  end.

(** [re.compile]: the tree and the number of groups. *)
Definition compile (f : N) (s : str) : option (rx * nat) :=
  match parse_alt (4 * length s + 4) f (0, []) s with
  | Some (a, (n, _), []) => Some (a, n)
  | _ => None
  end.

(** ** Pattern.asRegex, asSeparator, asReplacement (ptypes.py:189-220) *)

(** The first [re.sub] of both methods: one more for every reference to a
    group, that is a digit from 1 to 9 and possibly another one after an odd
    number of backslashes ([odd]). *)
Definition bump (c : char) (d : option char) : str :=
  let v x := match digit_value x with Some k => Z.of_N k | None => 0%Z end in
  str_of_Z (match d with None => v c + 1 | Some d => 10 * v c + v d + 1 end)%Z.
Fixpoint bump_refs (odd : bool) (s : str) : str :=
  match s with
  | [] => []
  | c :: s' =>
    if N.eqb c 92 then c :: bump_refs (negb odd) s'
    else if odd && is_ascii_digit c && negb (N.eqb c 48)
    then match s' with
         | d :: s'' => if is_digit d then bump c (Some d) ++ bump_refs false s''
                       else bump c None ++ bump_refs false s'
         | [] => bump c None
         end
    else c :: bump_refs false s'
  end.

Definition as_regex (raw : str) : str := bump_refs false (s_ "(?P<all>" ++ raw ++ s_ ")").

(** Ampersands: unescaped ones stand for the match, escaped ones for
    themselves. *)
Fixpoint amps (odd : bool) (s : str) : str :=
  match s with
  | [] => []
  | c :: s' =>
    if N.eqb c 92 then c :: amps (negb odd) s'
    else if negb odd && N.eqb c 38 then s_ "\g<all>" ++ amps false s'
    else c :: amps false s'
  end.
Fixpoint unescape_amps (s : str) : str :=
  match s with
  | [] => []
  | c :: s' => match s' with
               | d :: s'' => if N.eqb c 92 && N.eqb d 38 then 38%N :: unescape_amps s''
                             else c :: unescape_amps s'
               | [] => [c]
               end
  end.
Definition as_replacement (raw : str) : str := unescape_amps (amps false (bump_refs false raw)).

(** ** Replacement templates of [re.sub] *)

Inductive piece : Type := PLit (c : char) | PGrp (n : nat).

Definition template_escape (c : char) : option char :=
  if N.eqb c 92 then Some 92%N
  else if N.eqb c 98 then Some 8%N
  else letter_escape c.
Fixpoint template (n : nat) (groups : nat) (s : str) : option (list piece) :=
  match n with
  | O => None
  | S n' =>
    match s with
    | [] => Some []
    | 92%N :: s1 =>
      match s1 with
      | [] => None
      | c :: s2 =>
        if N.eqb c 103 then                                        (* \g *)
          if startswith (s_ "<all>") s2
          then option_map (cons (PGrp 1)) (template n' groups (skipn 5 s2))
          else None
        else if N.eqb c 48 then None
        else if is_ascii_digit c then
          let one := N.to_nat c - 48 in
          let '(k, rest) :=
            match s2 with
            | d :: s3 => if is_ascii_digit d then (10 * one + (N.to_nat d - 48), s3) else (one, s2)
            | [] => (one, s2)
            end in
          let octal :=
            match s2 with
            | d :: e :: _ => N.ltb c 56 && is_ascii_digit d && N.ltb d 56
                             && is_ascii_digit e && N.ltb e 56
            | _ => false
            end in
          if negb octal && Nat.leb k groups
          then option_map (cons (PGrp k)) (template n' groups rest)
          else None
        else match template_escape c with
             | Some d => option_map (cons (PLit d)) (template n' groups s2)
             | None => if is_ascii_letter c then None
                       else option_map (fun l => PLit 92%N :: PLit c :: l) (template n' groups s2)
             end
      end
    | c :: s1 => option_map (cons (PLit c)) (template n' groups s1)
    end
  end.
Definition parse_template (groups : nat) (s : str) : option (list piece) :=
  template (S (length s)) groups s.
(** A group without a match is empty. *)
Definition expand (t : str) (l : list piece) (m : found) : str :=
  concat (map (fun p => match p with
                        | PLit c => [c]
                        | PGrp n => match group_text t m n with Some x => x | None => [] end
                        end) l).

(** ** [re.sub] and [re.split] *)

Fixpoint sub_from (t : str) (sub : found -> str) (pos : nat) (ms : list found) : str :=
  match ms with
  | [] => skipn pos t
  | m :: ms' => span t pos (fd_start m) ++ sub m ++ sub_from t sub (fd_end m) ms'
  end.
(** Groups without a match are Python's None. *)
Fixpoint split_from (t : str) (groups : nat) (pos : nat) (ms : list found) : list (option str) :=
  match ms with
  | [] => [Some (skipn pos t)]
  | m :: ms' => Some (span t pos (fd_start m))
                :: map (group_text t m) (seq 1 groups)
                ++ split_from t groups (fd_end m) ms'
  end.

(** ** The operations of the operators *)

(** IGNORECASE is modelled for ASCII only. *)
Definition usable (f : N) (raw t : str) : bool :=
  negb (fl_ignorecase f) || forallb is_ascii (raw ++ t).
Definition with_regex {A} (f : N) (raw t : str) (k : rx -> nat -> option A) : option A :=
  if usable f raw t
  then match compile f raw with Some (r, n) => k r n | None => None end
  else None.

Definition re_search (raw : str) (f : N) (t : str) : option (option found * nat) :=
  with_regex f (as_regex raw) t (fun r n => Some (search f r t, n)).
Definition re_fullmatch (raw : str) (f : N) (t : str) : option (option found * nat) :=
  with_regex f (as_regex raw) t (fun r n => Some (fullmatch f r t, n)).
Definition re_finditer (raw : str) (f : N) (t : str) : option (list found * nat) :=
  with_regex f (as_regex raw) t (fun r n => Some (matches f r t, n)).
(** [regex.sub(template, t)]. *)
Definition re_sub (regex : str) (f : N) (templ : str) (t : str) : option str :=
  with_regex f regex t
    (fun r n => match parse_template n templ with
                | Some l => Some (sub_from t (expand t l) 0 (matches f r t))
                | None => None
                end).
Definition re_split (raw : str) (f : N) (t : str) : option (list (option str)) :=
  with_regex f raw t (fun r n => Some (split_from t n 0 (matches f r t))).
