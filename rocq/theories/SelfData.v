(** Tables of the parser generated by the project itself for its own syntax description,
    self/self.go:812-1433, written by tools/selfdata.py: the address of an entry is its id;
    ids with no entry in the file get a dummy that nothing refers to. *)
From Verif Require Import Base Results Parser.
Local Open Scope string_scope.

(** self/self.go:813-1120 *)
Definition selfParsers : pheap := [
  PChar "" 0 true [] [];
  PChar "" 1 false [(32)%Z] [];
  PSeq "" 2 10%N [1] [((1)%Z, (1)%Z); ((1)%Z, (1)%Z)] [15; 193; 194] true;
  PChar "" 3 false [(9)%Z] [];
  PSeq "" 4 10%N [3] [((1)%Z, (1)%Z); ((1)%Z, (1)%Z)] [15; 193; 194] true;
  PChar "" 5 false [(10)%Z] [];
  PSeq "" 6 10%N [5] [((1)%Z, (1)%Z); ((1)%Z, (1)%Z)] [15; 193; 194] true;
  PChar "" 7 false [(8)%Z] [];
  PSeq "" 8 10%N [7] [((1)%Z, (1)%Z); ((1)%Z, (1)%Z)] [15; 193; 194] true;
  PChar "" 9 false [(12)%Z] [];
  PSeq "" 10 10%N [9] [((1)%Z, (1)%Z); ((1)%Z, (1)%Z)] [15; 193; 194] true;
  PChar "" 11 false [(13)%Z] [];
  PSeq "" 12 10%N [11] [((1)%Z, (1)%Z); ((1)%Z, (1)%Z)] [15; 193; 194] true;
  PChar "" 13 false [(11)%Z] [];
  PSeq "" 14 10%N [13] [((1)%Z, (1)%Z); ((1)%Z, (1)%Z)] [15; 193; 194] true;
  PChoice "wschar" 15 258%N [2; 4; 6; 8; 10; 12; 14] [193; 194];
  PChar "" 16 false [(47)%Z] [];
  PChar "" 17 false [(42)%Z] [];
  PSeq "" 18 10%N [16; 17] [((1)%Z, (1)%Z); ((1)%Z, (1)%Z); ((1)%Z, (1)%Z); ((1)%Z, (1)%Z)] [] true;
  PChar "" 19 false [(42)%Z] [];
  PSeq "" 20 10%N [19] [((1)%Z, (1)%Z); ((1)%Z, (1)%Z)] [] true;
  PChar "" 21 true [(47)%Z] [];
  PSeq "" 22 10%N [21] [((1)%Z, (1)%Z); ((1)%Z, (1)%Z)] [] true;
  PSeq "" 23 10%N [20; 22] [((1)%Z, (1)%Z); ((1)%Z, (1)%Z); ((1)%Z, (1)%Z); ((1)%Z, (1)%Z)] [26] false;
  PChar "" 24 true [(42)%Z] [];
  PSeq "" 25 10%N [24] [((1)%Z, (1)%Z); ((1)%Z, (1)%Z)] [26] true;
  PChoice "" 26 10%N [23; 25] [];
  PChar "" 27 false [(42)%Z] [];
  PChar "" 28 false [(47)%Z] [];
  PSeq "" 29 10%N [27; 28] [((1)%Z, (1)%Z); ((1)%Z, (1)%Z); ((1)%Z, (1)%Z); ((1)%Z, (1)%Z)] [] true;
  PSeq "block-comment" 30 266%N [18; 26; 29] [((1)%Z, (1)%Z); ((0)%Z, (-1)%Z); ((1)%Z, (1)%Z); ((1)%Z, (1)%Z); ((0)%Z, (-1)%Z); ((1)%Z, (1)%Z)] [37] false;
  PChar "" 31 false [(47)%Z] [];
  PChar "" 32 false [(47)%Z] [];
  PSeq "" 33 10%N [31; 32] [((1)%Z, (1)%Z); ((1)%Z, (1)%Z); ((1)%Z, (1)%Z); ((1)%Z, (1)%Z)] [] true;
  PChar "" 34 true [(10)%Z] [];
  PSeq "" 35 10%N [34] [((1)%Z, (1)%Z); ((1)%Z, (1)%Z)] [] true;
  PSeq "line-comment" 36 266%N [33; 35] [((1)%Z, (1)%Z); ((0)%Z, (-1)%Z); ((1)%Z, (1)%Z); ((0)%Z, (-1)%Z)] [37] false;
  PChoice "comment-segment" 37 266%N [36; 30] [];
  PChar "" 38 false [(32)%Z] [];
  PSeq "" 39 10%N [38] [((1)%Z, (1)%Z); ((1)%Z, (1)%Z)] [50] true;
  PChar "" 40 false [(9)%Z] [];
  PSeq "" 41 10%N [40] [((1)%Z, (1)%Z); ((1)%Z, (1)%Z)] [50] true;
  PChar "" 42 false [(8)%Z] [];
  PSeq "" 43 10%N [42] [((1)%Z, (1)%Z); ((1)%Z, (1)%Z)] [50] true;
  PChar "" 44 false [(12)%Z] [];
  PSeq "" 45 10%N [44] [((1)%Z, (1)%Z); ((1)%Z, (1)%Z)] [50] true;
  PChar "" 46 false [(13)%Z] [];
  PSeq "" 47 10%N [46] [((1)%Z, (1)%Z); ((1)%Z, (1)%Z)] [50] true;
  PChar "" 48 false [(11)%Z] [];
  PSeq "" 49 10%N [48] [((1)%Z, (1)%Z); ((1)%Z, (1)%Z)] [50] true;
  PChoice "ws-no-nl" 50 266%N [39; 41; 43; 45; 47; 49] [];
  PChar "" 51 false [(10)%Z] [];
  PSeq "" 52 10%N [51] [((1)%Z, (1)%Z); ((1)%Z, (1)%Z)] [] true;
  PSeq "" 53 10%N [50; 52; 50; 37] [((0)%Z, (-1)%Z); ((0)%Z, (1)%Z); ((0)%Z, (-1)%Z); ((1)%Z, (1)%Z); ((0)%Z, (-1)%Z); ((0)%Z, (1)%Z); ((0)%Z, (-1)%Z); ((1)%Z, (1)%Z)] [] false;
  PSeq "comment" 54 264%N [37; 53] [((1)%Z, (1)%Z); ((0)%Z, (-1)%Z); ((1)%Z, (1)%Z); ((0)%Z, (-1)%Z)] [193; 194] false;
  PChar "" 55 false [(46)%Z] [];
  PSeq "any-char" 56 264%N [55] [((1)%Z, (1)%Z); ((1)%Z, (1)%Z)] [89; 133; 123; 127] true;
  PChar "" 57 false [(94)%Z] [];
  PSeq "class-not" 58 264%N [57] [((1)%Z, (1)%Z); ((1)%Z, (1)%Z)] [] true;
  PChar "" 59 true [(92)%Z; (91)%Z; (93)%Z; (94)%Z; (45)%Z] [];
  PSeq "" 60 10%N [59] [((1)%Z, (1)%Z); ((1)%Z, (1)%Z)] [66; 72] true;
  PChar "" 61 false [(92)%Z] [];
  PSeq "" 62 10%N [61] [((1)%Z, (1)%Z); ((1)%Z, (1)%Z)] [] true;
  PChar "" 63 true [] [];
  PSeq "" 64 10%N [63] [((1)%Z, (1)%Z); ((1)%Z, (1)%Z)] [] true;
  PSeq "" 65 10%N [62; 64] [((1)%Z, (1)%Z); ((1)%Z, (1)%Z); ((1)%Z, (1)%Z); ((1)%Z, (1)%Z)] [66; 72] false;
  PChoice "class-char" 66 264%N [60; 65] [72];
  PChar "" 67 false [(45)%Z] [];
  PSeq "" 68 10%N [67] [((1)%Z, (1)%Z); ((1)%Z, (1)%Z)] [] true;
  PSeq "char-range" 69 264%N [66; 68; 66] [((1)%Z, (1)%Z); ((1)%Z, (1)%Z); ((1)%Z, (1)%Z); ((1)%Z, (1)%Z); ((1)%Z, (1)%Z); ((1)%Z, (1)%Z)] [72] false;
  PChar "" 70 false [(91)%Z] [];
  PSeq "" 71 10%N [70] [((1)%Z, (1)%Z); ((1)%Z, (1)%Z)] [] true;
  PChoice "" 72 10%N [66; 69] [];
  PChar "" 73 false [(93)%Z] [];
  PSeq "" 74 10%N [73] [((1)%Z, (1)%Z); ((1)%Z, (1)%Z)] [] true;
  PSeq "char-class" 75 264%N [71; 58; 72; 74] [((1)%Z, (1)%Z); ((0)%Z, (1)%Z); ((0)%Z, (-1)%Z); ((1)%Z, (1)%Z); ((1)%Z, (1)%Z); ((0)%Z, (1)%Z); ((0)%Z, (-1)%Z); ((1)%Z, (1)%Z)] [89; 133; 123; 127] false;
  PChar "" 76 true [(92)%Z; (34)%Z] [];
  PSeq "" 77 10%N [76] [((1)%Z, (1)%Z); ((1)%Z, (1)%Z)] [83] true;
  PChar "" 78 false [(92)%Z] [];
  PSeq "" 79 10%N [78] [((1)%Z, (1)%Z); ((1)%Z, (1)%Z)] [] true;
  PChar "" 80 true [] [];
  PSeq "" 81 10%N [80] [((1)%Z, (1)%Z); ((1)%Z, (1)%Z)] [] true;
  PSeq "" 82 10%N [79; 81] [((1)%Z, (1)%Z); ((1)%Z, (1)%Z); ((1)%Z, (1)%Z); ((1)%Z, (1)%Z)] [83] false;
  PChoice "sequence-char" 83 264%N [77; 82] [];
  PChar "" 84 false [(34)%Z] [];
  PSeq "" 85 10%N [84] [((1)%Z, (1)%Z); ((1)%Z, (1)%Z)] [] true;
  PChar "" 86 false [(34)%Z] [];
  PSeq "" 87 10%N [86] [((1)%Z, (1)%Z); ((1)%Z, (1)%Z)] [] true;
  PSeq "char-sequence" 88 264%N [85; 83; 87] [((1)%Z, (1)%Z); ((0)%Z, (-1)%Z); ((1)%Z, (1)%Z); ((1)%Z, (1)%Z); ((0)%Z, (-1)%Z); ((1)%Z, (1)%Z)] [89; 133; 123; 127] false;
  PChoice "terminal" 89 258%N [56; 75; 88] [133; 123; 127];
  PChar "" 90 true [(92)%Z; (32)%Z; (10)%Z; (9)%Z; (8)%Z; (12)%Z; (13)%Z; (11)%Z; (47)%Z; (46)%Z; (91)%Z; (93)%Z; (34)%Z; (123)%Z; (125)%Z; (94)%Z; (43)%Z; (42)%Z; (63)%Z; (124)%Z; (40)%Z; (41)%Z; (58)%Z; (61)%Z; (59)%Z] [];
  PSeq "" 91 10%N [90] [((1)%Z, (1)%Z); ((1)%Z, (1)%Z)] [] true;
  PSeq "symbol" 92 264%N [91] [((1)%Z, (-1)%Z); ((1)%Z, (-1)%Z)] [133; 123; 127] false;
  PChar "" 93 false [(40)%Z] [];
  PSeq "" 94 10%N [93] [((1)%Z, (1)%Z); ((1)%Z, (1)%Z)] [] true;
  PChar "" 95 false [(41)%Z] [];
  PSeq "" 96 10%N [95] [((1)%Z, (1)%Z); ((1)%Z, (1)%Z)] [] true;
  PSeq "group" 97 258%N [94; 194; 133; 194; 96] [((1)%Z, (1)%Z); ((0)%Z, (-1)%Z); ((1)%Z, (1)%Z); ((0)%Z, (-1)%Z); ((1)%Z, (1)%Z)] [133; 123; 127] false;
  PChar "" 98 false [] [((48)%Z, (57)%Z)];
  PSeq "" 99 10%N [98] [((1)%Z, (1)%Z); ((1)%Z, (1)%Z)] [] true;
  PSeq "number" 100 266%N [99] [((1)%Z, (-1)%Z); ((1)%Z, (-1)%Z)] [] false;
  PSeq "count" 101 256%N [100] [((1)%Z, (1)%Z)] [] false;
  PChar "" 102 false [(123)%Z] [];
  PSeq "" 103 10%N [102] [((1)%Z, (1)%Z); ((1)%Z, (1)%Z)] [] true;
  PChar "" 104 false [(125)%Z] [];
  PSeq "" 105 10%N [104] [((1)%Z, (1)%Z); ((1)%Z, (1)%Z)] [] true;
  PSeq "count-quantifier" 106 256%N [103; 194; 101; 194; 105] [((1)%Z, (1)%Z); ((0)%Z, (-1)%Z); ((1)%Z, (1)%Z); ((0)%Z, (-1)%Z); ((1)%Z, (1)%Z)] [122] false;
  PSeq "range-from" 107 256%N [100] [((1)%Z, (1)%Z)] [] false;
  PSeq "range-to" 108 256%N [100] [((1)%Z, (1)%Z)] [] false;
  PChar "" 109 false [(123)%Z] [];
  PSeq "" 110 10%N [109] [((1)%Z, (1)%Z); ((1)%Z, (1)%Z)] [] true;
  PChar "" 111 false [(44)%Z] [];
  PSeq "" 112 10%N [111] [((1)%Z, (1)%Z); ((1)%Z, (1)%Z)] [] true;
  PChar "" 113 false [(125)%Z] [];
  PSeq "" 114 10%N [113] [((1)%Z, (1)%Z); ((1)%Z, (1)%Z)] [] true;
  PSeq "range-quantifier" 115 256%N [110; 194; 107; 194; 112; 194; 108; 194; 114] [((1)%Z, (1)%Z); ((0)%Z, (-1)%Z); ((0)%Z, (1)%Z); ((0)%Z, (-1)%Z); ((1)%Z, (1)%Z); ((0)%Z, (-1)%Z); ((0)%Z, (1)%Z); ((0)%Z, (-1)%Z); ((1)%Z, (1)%Z)] [122] false;
  PChar "" 116 false [(43)%Z] [];
  PSeq "one-or-more" 117 264%N [116] [((1)%Z, (1)%Z); ((1)%Z, (1)%Z)] [122] true;
  PChar "" 118 false [(42)%Z] [];
  PSeq "zero-or-more" 119 264%N [118] [((1)%Z, (1)%Z); ((1)%Z, (1)%Z)] [122] true;
  PChar "" 120 false [(63)%Z] [];
  PSeq "zero-or-one" 121 264%N [120] [((1)%Z, (1)%Z); ((1)%Z, (1)%Z)] [122] true;
  PChoice "quantity" 122 258%N [106; 115; 117; 119; 121] [];
  PChoice "" 123 10%N [89; 92; 97] [];
  PSeq "item" 124 264%N [123; 122] [((1)%Z, (1)%Z); ((0)%Z, (1)%Z); ((1)%Z, (1)%Z); ((0)%Z, (1)%Z)] [] false;
  PSeq "" 125 2%N [194; 124] [((0)%Z, (-1)%Z); ((1)%Z, (1)%Z)] [] false;
  PSeq "sequence" 126 256%N [124; 125] [((1)%Z, (1)%Z); ((0)%Z, (-1)%Z)] [133; 127] false;
  PChoice "option" 127 258%N [89; 92; 97; 126] [];
  PChar "" 128 false [(124)%Z] [];
  PSeq "" 129 10%N [128] [((1)%Z, (1)%Z); ((1)%Z, (1)%Z)] [] true;
  PSeq "" 130 2%N [129; 194; 127] [((1)%Z, (1)%Z); ((0)%Z, (-1)%Z); ((1)%Z, (1)%Z)] [] false;
  PSeq "" 131 2%N [194; 130] [((0)%Z, (-1)%Z); ((1)%Z, (1)%Z)] [] false;
  PSeq "choice" 132 256%N [127; 194; 130; 131] [((1)%Z, (1)%Z); ((0)%Z, (-1)%Z); ((1)%Z, (1)%Z); ((0)%Z, (-1)%Z)] [133] false;
  PChoice "expression" 133 258%N [89; 92; 97; 126; 132] [];
  PChar "" 134 false [(97)%Z] [];
  PChar "" 135 false [(108)%Z] [];
  PChar "" 136 false [(105)%Z] [];
  PChar "" 137 false [(97)%Z] [];
  PChar "" 138 false [(115)%Z] [];
  PSeq "alias" 139 264%N [134; 135; 136; 137; 138] [((1)%Z, (1)%Z); ((1)%Z, (1)%Z); ((1)%Z, (1)%Z); ((1)%Z, (1)%Z); ((1)%Z, (1)%Z); ((1)%Z, (1)%Z); ((1)%Z, (1)%Z); ((1)%Z, (1)%Z); ((1)%Z, (1)%Z); ((1)%Z, (1)%Z)] [170] true;
  PChar "" 140 false [(119)%Z] [];
  PChar "" 141 false [(115)%Z] [];
  PSeq "ws" 142 264%N [140; 141] [((1)%Z, (1)%Z); ((1)%Z, (1)%Z); ((1)%Z, (1)%Z); ((1)%Z, (1)%Z)] [170] true;
  PChar "" 143 false [(110)%Z] [];
  PChar "" 144 false [(111)%Z] [];
  PChar "" 145 false [(119)%Z] [];
  PChar "" 146 false [(115)%Z] [];
  PSeq "nows" 147 264%N [143; 144; 145; 146] [((1)%Z, (1)%Z); ((1)%Z, (1)%Z); ((1)%Z, (1)%Z); ((1)%Z, (1)%Z); ((1)%Z, (1)%Z); ((1)%Z, (1)%Z); ((1)%Z, (1)%Z); ((1)%Z, (1)%Z)] [170] true;
  PChar "" 148 false [(107)%Z] [];
  PChar "" 149 false [(119)%Z] [];
  PSeq "kw" 150 264%N [148; 149] [((1)%Z, (1)%Z); ((1)%Z, (1)%Z); ((1)%Z, (1)%Z); ((1)%Z, (1)%Z)] [170] true;
  PChar "" 151 false [(110)%Z] [];
  PChar "" 152 false [(111)%Z] [];
  PChar "" 153 false [(107)%Z] [];
  PChar "" 154 false [(119)%Z] [];
  PSeq "nokw" 155 264%N [151; 152; 153; 154] [((1)%Z, (1)%Z); ((1)%Z, (1)%Z); ((1)%Z, (1)%Z); ((1)%Z, (1)%Z); ((1)%Z, (1)%Z); ((1)%Z, (1)%Z); ((1)%Z, (1)%Z); ((1)%Z, (1)%Z)] [170] true;
  PChar "" 156 false [(102)%Z] [];
  PChar "" 157 false [(97)%Z] [];
  PChar "" 158 false [(105)%Z] [];
  PChar "" 159 false [(108)%Z] [];
  PChar "" 160 false [(112)%Z] [];
  PChar "" 161 false [(97)%Z] [];
  PChar "" 162 false [(115)%Z] [];
  PChar "" 163 false [(115)%Z] [];
  PSeq "failpass" 164 264%N [156; 157; 158; 159; 160; 161; 162; 163] [((1)%Z, (1)%Z); ((1)%Z, (1)%Z); ((1)%Z, (1)%Z); ((1)%Z, (1)%Z); ((1)%Z, (1)%Z); ((1)%Z, (1)%Z); ((1)%Z, (1)%Z); ((1)%Z, (1)%Z); ((1)%Z, (1)%Z); ((1)%Z, (1)%Z); ((1)%Z, (1)%Z); ((1)%Z, (1)%Z); ((1)%Z, (1)%Z); ((1)%Z, (1)%Z); ((1)%Z, (1)%Z); ((1)%Z, (1)%Z)] [170] true;
  PChar "" 165 false [(114)%Z] [];
  PChar "" 166 false [(111)%Z] [];
  PChar "" 167 false [(111)%Z] [];
  PChar "" 168 false [(116)%Z] [];
  PSeq "root" 169 264%N [165; 166; 167; 168] [((1)%Z, (1)%Z); ((1)%Z, (1)%Z); ((1)%Z, (1)%Z); ((1)%Z, (1)%Z); ((1)%Z, (1)%Z); ((1)%Z, (1)%Z); ((1)%Z, (1)%Z); ((1)%Z, (1)%Z)] [170] true;
  PChoice "flag" 170 258%N [139; 142; 147; 150; 155; 164; 169] [];
  PChar "" 171 false [(58)%Z] [];
  PSeq "" 172 10%N [171] [((1)%Z, (1)%Z); ((1)%Z, (1)%Z)] [] true;
  PSeq "" 173 10%N [172; 170] [((1)%Z, (1)%Z); ((1)%Z, (1)%Z); ((1)%Z, (1)%Z); ((1)%Z, (1)%Z)] [] false;
  PSeq "definition-name" 174 266%N [92; 173] [((1)%Z, (1)%Z); ((0)%Z, (-1)%Z); ((1)%Z, (1)%Z); ((0)%Z, (-1)%Z)] [] false;
  PChar "" 175 false [(61)%Z] [];
  PSeq "" 176 10%N [175] [((1)%Z, (1)%Z); ((1)%Z, (1)%Z)] [] true;
  PSeq "definition" 177 256%N [174; 194; 176; 194; 133] [((1)%Z, (1)%Z); ((0)%Z, (-1)%Z); ((1)%Z, (1)%Z); ((0)%Z, (-1)%Z); ((1)%Z, (1)%Z)] [] false;
  PChar "" 178 false [(59)%Z] [];
  PSeq "" 179 10%N [178] [((1)%Z, (1)%Z); ((1)%Z, (1)%Z)] [] true;
  PSeq "" 180 2%N [194; 179] [((0)%Z, (-1)%Z); ((1)%Z, (1)%Z)] [] false;
  PSeq "" 181 2%N [179; 180; 194; 177] [((1)%Z, (1)%Z); ((0)%Z, (-1)%Z); ((0)%Z, (-1)%Z); ((1)%Z, (1)%Z)] [] false;
  PSeq "" 182 2%N [194; 181] [((0)%Z, (-1)%Z); ((1)%Z, (1)%Z)] [] false;
  PSeq "" 183 2%N [194; 181; 182] [((0)%Z, (-1)%Z); ((1)%Z, (1)%Z); ((0)%Z, (-1)%Z)] [] false;
  PSeq "definitions" 184 258%N [177; 183] [((1)%Z, (1)%Z); ((0)%Z, (1)%Z)] [] false;
  PChar "" 185 false [(59)%Z] [];
  PSeq "" 186 10%N [185] [((1)%Z, (1)%Z); ((1)%Z, (1)%Z)] [] true;
  PChar "" 187 false [(59)%Z] [];
  PSeq "" 188 10%N [187] [((1)%Z, (1)%Z); ((1)%Z, (1)%Z)] [] true;
  PSeq "" 189 2%N [194; 186] [((0)%Z, (-1)%Z); ((1)%Z, (1)%Z)] [] false;
  PSeq "" 190 2%N [186; 189] [((1)%Z, (1)%Z); ((0)%Z, (-1)%Z)] [] false;
  PSeq "" 191 2%N [194; 188] [((0)%Z, (-1)%Z); ((1)%Z, (1)%Z)] [] false;
  PSeq "" 192 2%N [194; 188; 191] [((0)%Z, (-1)%Z); ((1)%Z, (1)%Z); ((0)%Z, (-1)%Z)] [] false;
  PChoice "wsc" 193 262%N [15; 54] [194];
  PChoice "" 194 2%N [193] [];
  PSeq "syntax:wsroot" 195 258%N [190; 194; 184; 192] [((0)%Z, (1)%Z); ((0)%Z, (-1)%Z); ((0)%Z, (1)%Z); ((0)%Z, (1)%Z)] [] false;
  PSeq "" 196 128%N [194; 195; 194] [((0)%Z, (-1)%Z); ((1)%Z, (1)%Z); ((0)%Z, (-1)%Z)] [] false
].

(** self/self.go:1121-1428 *)
Definition selfBuilders : pheap := [
  PChar "" 0 true [] [];
  PChar "" 0 false [] [];
  PSeq "" 2 10%N [1] [((1)%Z, (1)%Z); ((1)%Z, (1)%Z)] [15; 193; 194] true;
  PChar "" 0 false [] [];
  PSeq "" 4 10%N [3] [((1)%Z, (1)%Z); ((1)%Z, (1)%Z)] [15; 193; 194] true;
  PChar "" 0 false [] [];
  PSeq "" 6 10%N [5] [((1)%Z, (1)%Z); ((1)%Z, (1)%Z)] [15; 193; 194] true;
  PChar "" 0 false [] [];
  PSeq "" 8 10%N [7] [((1)%Z, (1)%Z); ((1)%Z, (1)%Z)] [15; 193; 194] true;
  PChar "" 0 false [] [];
  PSeq "" 10 10%N [9] [((1)%Z, (1)%Z); ((1)%Z, (1)%Z)] [15; 193; 194] true;
  PChar "" 0 false [] [];
  PSeq "" 12 10%N [11] [((1)%Z, (1)%Z); ((1)%Z, (1)%Z)] [15; 193; 194] true;
  PChar "" 0 false [] [];
  PSeq "" 14 10%N [13] [((1)%Z, (1)%Z); ((1)%Z, (1)%Z)] [15; 193; 194] true;
  PChoice "" 15 258%N [2; 4; 6; 8; 10; 12; 14] [193; 194];
  PChar "" 0 false [] [];
  PChar "" 0 false [] [];
  PSeq "" 18 10%N [16; 17] [((1)%Z, (1)%Z); ((1)%Z, (1)%Z); ((1)%Z, (1)%Z); ((1)%Z, (1)%Z)] [] true;
  PChar "" 0 false [] [];
  PSeq "" 20 10%N [19] [((1)%Z, (1)%Z); ((1)%Z, (1)%Z)] [] true;
  PChar "" 0 false [] [];
  PSeq "" 22 10%N [21] [((1)%Z, (1)%Z); ((1)%Z, (1)%Z)] [] true;
  PSeq "" 23 10%N [20; 22] [((1)%Z, (1)%Z); ((1)%Z, (1)%Z); ((1)%Z, (1)%Z); ((1)%Z, (1)%Z)] [26] false;
  PChar "" 0 false [] [];
  PSeq "" 25 10%N [24] [((1)%Z, (1)%Z); ((1)%Z, (1)%Z)] [26] true;
  PChoice "" 26 10%N [23; 25] [];
  PChar "" 0 false [] [];
  PChar "" 0 false [] [];
  PSeq "" 29 10%N [27; 28] [((1)%Z, (1)%Z); ((1)%Z, (1)%Z); ((1)%Z, (1)%Z); ((1)%Z, (1)%Z)] [] true;
  PSeq "" 30 266%N [18; 26; 29] [((1)%Z, (1)%Z); ((0)%Z, (-1)%Z); ((1)%Z, (1)%Z); ((1)%Z, (1)%Z); ((0)%Z, (-1)%Z); ((1)%Z, (1)%Z)] [37] false;
  PChar "" 0 false [] [];
  PChar "" 0 false [] [];
  PSeq "" 33 10%N [31; 32] [((1)%Z, (1)%Z); ((1)%Z, (1)%Z); ((1)%Z, (1)%Z); ((1)%Z, (1)%Z)] [] true;
  PChar "" 0 false [] [];
  PSeq "" 35 10%N [34] [((1)%Z, (1)%Z); ((1)%Z, (1)%Z)] [] true;
  PSeq "" 36 266%N [33; 35] [((1)%Z, (1)%Z); ((0)%Z, (-1)%Z); ((1)%Z, (1)%Z); ((0)%Z, (-1)%Z)] [37] false;
  PChoice "" 37 266%N [36; 30] [];
  PChar "" 0 false [] [];
  PSeq "" 39 10%N [38] [((1)%Z, (1)%Z); ((1)%Z, (1)%Z)] [50] true;
  PChar "" 0 false [] [];
  PSeq "" 41 10%N [40] [((1)%Z, (1)%Z); ((1)%Z, (1)%Z)] [50] true;
  PChar "" 0 false [] [];
  PSeq "" 43 10%N [42] [((1)%Z, (1)%Z); ((1)%Z, (1)%Z)] [50] true;
  PChar "" 0 false [] [];
  PSeq "" 45 10%N [44] [((1)%Z, (1)%Z); ((1)%Z, (1)%Z)] [50] true;
  PChar "" 0 false [] [];
  PSeq "" 47 10%N [46] [((1)%Z, (1)%Z); ((1)%Z, (1)%Z)] [50] true;
  PChar "" 0 false [] [];
  PSeq "" 49 10%N [48] [((1)%Z, (1)%Z); ((1)%Z, (1)%Z)] [50] true;
  PChoice "" 50 266%N [39; 41; 43; 45; 47; 49] [];
  PChar "" 0 false [] [];
  PSeq "" 52 10%N [51] [((1)%Z, (1)%Z); ((1)%Z, (1)%Z)] [] true;
  PSeq "" 53 10%N [50; 52; 50; 37] [((0)%Z, (-1)%Z); ((0)%Z, (1)%Z); ((0)%Z, (-1)%Z); ((1)%Z, (1)%Z); ((0)%Z, (-1)%Z); ((0)%Z, (1)%Z); ((0)%Z, (-1)%Z); ((1)%Z, (1)%Z)] [] false;
  PSeq "comment" 54 264%N [37; 53] [((1)%Z, (1)%Z); ((0)%Z, (-1)%Z); ((1)%Z, (1)%Z); ((0)%Z, (-1)%Z)] [193; 194] false;
  PChar "" 0 false [] [];
  PSeq "any-char" 56 264%N [55] [((1)%Z, (1)%Z); ((1)%Z, (1)%Z)] [89; 133; 123; 127] true;
  PChar "" 0 false [] [];
  PSeq "class-not" 58 264%N [57] [((1)%Z, (1)%Z); ((1)%Z, (1)%Z)] [] true;
  PChar "" 0 false [] [];
  PSeq "" 60 10%N [59] [((1)%Z, (1)%Z); ((1)%Z, (1)%Z)] [66; 72] true;
  PChar "" 0 false [] [];
  PSeq "" 62 10%N [61] [((1)%Z, (1)%Z); ((1)%Z, (1)%Z)] [] true;
  PChar "" 0 false [] [];
  PSeq "" 64 10%N [63] [((1)%Z, (1)%Z); ((1)%Z, (1)%Z)] [] true;
  PSeq "" 65 10%N [62; 64] [((1)%Z, (1)%Z); ((1)%Z, (1)%Z); ((1)%Z, (1)%Z); ((1)%Z, (1)%Z)] [66; 72] false;
  PChoice "class-char" 66 264%N [60; 65] [72];
  PChar "" 0 false [] [];
  PSeq "" 68 10%N [67] [((1)%Z, (1)%Z); ((1)%Z, (1)%Z)] [] true;
  PSeq "char-range" 69 264%N [66; 68; 66] [((1)%Z, (1)%Z); ((1)%Z, (1)%Z); ((1)%Z, (1)%Z); ((1)%Z, (1)%Z); ((1)%Z, (1)%Z); ((1)%Z, (1)%Z)] [72] false;
  PChar "" 0 false [] [];
  PSeq "" 71 10%N [70] [((1)%Z, (1)%Z); ((1)%Z, (1)%Z)] [] true;
  PChoice "" 72 10%N [66; 69] [];
  PChar "" 0 false [] [];
  PSeq "" 74 10%N [73] [((1)%Z, (1)%Z); ((1)%Z, (1)%Z)] [] true;
  PSeq "char-class" 75 264%N [71; 58; 72; 74] [((1)%Z, (1)%Z); ((0)%Z, (1)%Z); ((0)%Z, (-1)%Z); ((1)%Z, (1)%Z); ((1)%Z, (1)%Z); ((0)%Z, (1)%Z); ((0)%Z, (-1)%Z); ((1)%Z, (1)%Z)] [89; 133; 123; 127] false;
  PChar "" 0 false [] [];
  PSeq "" 77 10%N [76] [((1)%Z, (1)%Z); ((1)%Z, (1)%Z)] [83] true;
  PChar "" 0 false [] [];
  PSeq "" 79 10%N [78] [((1)%Z, (1)%Z); ((1)%Z, (1)%Z)] [] true;
  PChar "" 0 false [] [];
  PSeq "" 81 10%N [80] [((1)%Z, (1)%Z); ((1)%Z, (1)%Z)] [] true;
  PSeq "" 82 10%N [79; 81] [((1)%Z, (1)%Z); ((1)%Z, (1)%Z); ((1)%Z, (1)%Z); ((1)%Z, (1)%Z)] [83] false;
  PChoice "sequence-char" 83 264%N [77; 82] [];
  PChar "" 0 false [] [];
  PSeq "" 85 10%N [84] [((1)%Z, (1)%Z); ((1)%Z, (1)%Z)] [] true;
  PChar "" 0 false [] [];
  PSeq "" 87 10%N [86] [((1)%Z, (1)%Z); ((1)%Z, (1)%Z)] [] true;
  PSeq "char-sequence" 88 264%N [85; 83; 87] [((1)%Z, (1)%Z); ((0)%Z, (-1)%Z); ((1)%Z, (1)%Z); ((1)%Z, (1)%Z); ((0)%Z, (-1)%Z); ((1)%Z, (1)%Z)] [89; 133; 123; 127] false;
  PChoice "" 89 258%N [56; 75; 88] [133; 123; 127];
  PChar "" 0 false [] [];
  PSeq "" 91 10%N [90] [((1)%Z, (1)%Z); ((1)%Z, (1)%Z)] [] true;
  PSeq "symbol" 92 264%N [91] [((1)%Z, (-1)%Z); ((1)%Z, (-1)%Z)] [133; 123; 127] false;
  PChar "" 0 false [] [];
  PSeq "" 94 10%N [93] [((1)%Z, (1)%Z); ((1)%Z, (1)%Z)] [] true;
  PChar "" 0 false [] [];
  PSeq "" 96 10%N [95] [((1)%Z, (1)%Z); ((1)%Z, (1)%Z)] [] true;
  PSeq "" 97 258%N [94; 194; 133; 194; 96] [((1)%Z, (1)%Z); ((0)%Z, (-1)%Z); ((1)%Z, (1)%Z); ((0)%Z, (-1)%Z); ((1)%Z, (1)%Z)] [133; 123; 127] false;
  PChar "" 0 false [] [];
  PSeq "" 99 10%N [98] [((1)%Z, (1)%Z); ((1)%Z, (1)%Z)] [] true;
  PSeq "" 100 266%N [99] [((1)%Z, (-1)%Z); ((1)%Z, (-1)%Z)] [] false;
  PSeq "count" 101 256%N [100] [((1)%Z, (1)%Z)] [] false;
  PChar "" 0 false [] [];
  PSeq "" 103 10%N [102] [((1)%Z, (1)%Z); ((1)%Z, (1)%Z)] [] true;
  PChar "" 0 false [] [];
  PSeq "" 105 10%N [104] [((1)%Z, (1)%Z); ((1)%Z, (1)%Z)] [] true;
  PSeq "count-quantifier" 106 256%N [103; 194; 101; 194; 105] [((1)%Z, (1)%Z); ((0)%Z, (-1)%Z); ((1)%Z, (1)%Z); ((0)%Z, (-1)%Z); ((1)%Z, (1)%Z)] [122] false;
  PSeq "range-from" 107 256%N [100] [((1)%Z, (1)%Z)] [] false;
  PSeq "range-to" 108 256%N [100] [((1)%Z, (1)%Z)] [] false;
  PChar "" 0 false [] [];
  PSeq "" 110 10%N [109] [((1)%Z, (1)%Z); ((1)%Z, (1)%Z)] [] true;
  PChar "" 0 false [] [];
  PSeq "" 112 10%N [111] [((1)%Z, (1)%Z); ((1)%Z, (1)%Z)] [] true;
  PChar "" 0 false [] [];
  PSeq "" 114 10%N [113] [((1)%Z, (1)%Z); ((1)%Z, (1)%Z)] [] true;
  PSeq "range-quantifier" 115 256%N [110; 194; 107; 194; 112; 194; 108; 194; 114] [((1)%Z, (1)%Z); ((0)%Z, (-1)%Z); ((0)%Z, (1)%Z); ((0)%Z, (-1)%Z); ((1)%Z, (1)%Z); ((0)%Z, (-1)%Z); ((0)%Z, (1)%Z); ((0)%Z, (-1)%Z); ((1)%Z, (1)%Z)] [122] false;
  PChar "" 0 false [] [];
  PSeq "one-or-more" 117 264%N [116] [((1)%Z, (1)%Z); ((1)%Z, (1)%Z)] [122] true;
  PChar "" 0 false [] [];
  PSeq "zero-or-more" 119 264%N [118] [((1)%Z, (1)%Z); ((1)%Z, (1)%Z)] [122] true;
  PChar "" 0 false [] [];
  PSeq "zero-or-one" 121 264%N [120] [((1)%Z, (1)%Z); ((1)%Z, (1)%Z)] [122] true;
  PChoice "" 122 258%N [106; 115; 117; 119; 121] [];
  PChoice "" 123 10%N [89; 92; 97] [];
  PSeq "item" 124 264%N [123; 122] [((1)%Z, (1)%Z); ((0)%Z, (1)%Z); ((1)%Z, (1)%Z); ((0)%Z, (1)%Z)] [] false;
  PSeq "" 125 2%N [194; 124] [((0)%Z, (-1)%Z); ((1)%Z, (1)%Z)] [] false;
  PSeq "sequence" 126 256%N [124; 125] [((1)%Z, (1)%Z); ((0)%Z, (-1)%Z)] [133; 127] false;
  PChoice "" 127 258%N [89; 92; 97; 126] [];
  PChar "" 0 false [] [];
  PSeq "" 129 10%N [128] [((1)%Z, (1)%Z); ((1)%Z, (1)%Z)] [] true;
  PSeq "" 130 2%N [129; 194; 127] [((1)%Z, (1)%Z); ((0)%Z, (-1)%Z); ((1)%Z, (1)%Z)] [] false;
  PSeq "" 131 2%N [194; 130] [((0)%Z, (-1)%Z); ((1)%Z, (1)%Z)] [] false;
  PSeq "choice" 132 256%N [127; 194; 130; 131] [((1)%Z, (1)%Z); ((0)%Z, (-1)%Z); ((1)%Z, (1)%Z); ((0)%Z, (-1)%Z)] [133] false;
  PChoice "" 133 258%N [89; 92; 97; 126; 132] [];
  PChar "" 0 false [] [];
  PChar "" 0 false [] [];
  PChar "" 0 false [] [];
  PChar "" 0 false [] [];
  PChar "" 0 false [] [];
  PSeq "alias" 139 264%N [134; 135; 136; 137; 138] [((1)%Z, (1)%Z); ((1)%Z, (1)%Z); ((1)%Z, (1)%Z); ((1)%Z, (1)%Z); ((1)%Z, (1)%Z); ((1)%Z, (1)%Z); ((1)%Z, (1)%Z); ((1)%Z, (1)%Z); ((1)%Z, (1)%Z); ((1)%Z, (1)%Z)] [170] true;
  PChar "" 0 false [] [];
  PChar "" 0 false [] [];
  PSeq "ws" 142 264%N [140; 141] [((1)%Z, (1)%Z); ((1)%Z, (1)%Z); ((1)%Z, (1)%Z); ((1)%Z, (1)%Z)] [170] true;
  PChar "" 0 false [] [];
  PChar "" 0 false [] [];
  PChar "" 0 false [] [];
  PChar "" 0 false [] [];
  PSeq "nows" 147 264%N [143; 144; 145; 146] [((1)%Z, (1)%Z); ((1)%Z, (1)%Z); ((1)%Z, (1)%Z); ((1)%Z, (1)%Z); ((1)%Z, (1)%Z); ((1)%Z, (1)%Z); ((1)%Z, (1)%Z); ((1)%Z, (1)%Z)] [170] true;
  PChar "" 0 false [] [];
  PChar "" 0 false [] [];
  PSeq "kw" 150 264%N [148; 149] [((1)%Z, (1)%Z); ((1)%Z, (1)%Z); ((1)%Z, (1)%Z); ((1)%Z, (1)%Z)] [170] true;
  PChar "" 0 false [] [];
  PChar "" 0 false [] [];
  PChar "" 0 false [] [];
  PChar "" 0 false [] [];
  PSeq "nokw" 155 264%N [151; 152; 153; 154] [((1)%Z, (1)%Z); ((1)%Z, (1)%Z); ((1)%Z, (1)%Z); ((1)%Z, (1)%Z); ((1)%Z, (1)%Z); ((1)%Z, (1)%Z); ((1)%Z, (1)%Z); ((1)%Z, (1)%Z)] [170] true;
  PChar "" 0 false [] [];
  PChar "" 0 false [] [];
  PChar "" 0 false [] [];
  PChar "" 0 false [] [];
  PChar "" 0 false [] [];
  PChar "" 0 false [] [];
  PChar "" 0 false [] [];
  PChar "" 0 false [] [];
  PSeq "failpass" 164 264%N [156; 157; 158; 159; 160; 161; 162; 163] [((1)%Z, (1)%Z); ((1)%Z, (1)%Z); ((1)%Z, (1)%Z); ((1)%Z, (1)%Z); ((1)%Z, (1)%Z); ((1)%Z, (1)%Z); ((1)%Z, (1)%Z); ((1)%Z, (1)%Z); ((1)%Z, (1)%Z); ((1)%Z, (1)%Z); ((1)%Z, (1)%Z); ((1)%Z, (1)%Z); ((1)%Z, (1)%Z); ((1)%Z, (1)%Z); ((1)%Z, (1)%Z); ((1)%Z, (1)%Z)] [170] true;
  PChar "" 0 false [] [];
  PChar "" 0 false [] [];
  PChar "" 0 false [] [];
  PChar "" 0 false [] [];
  PSeq "root" 169 264%N [165; 166; 167; 168] [((1)%Z, (1)%Z); ((1)%Z, (1)%Z); ((1)%Z, (1)%Z); ((1)%Z, (1)%Z); ((1)%Z, (1)%Z); ((1)%Z, (1)%Z); ((1)%Z, (1)%Z); ((1)%Z, (1)%Z)] [170] true;
  PChoice "" 170 258%N [139; 142; 147; 150; 155; 164; 169] [];
  PChar "" 0 false [] [];
  PSeq "" 172 10%N [171] [((1)%Z, (1)%Z); ((1)%Z, (1)%Z)] [] true;
  PSeq "" 173 10%N [172; 170] [((1)%Z, (1)%Z); ((1)%Z, (1)%Z); ((1)%Z, (1)%Z); ((1)%Z, (1)%Z)] [] false;
  PSeq "" 174 266%N [92; 173] [((1)%Z, (1)%Z); ((0)%Z, (-1)%Z); ((1)%Z, (1)%Z); ((0)%Z, (-1)%Z)] [] false;
  PChar "" 0 false [] [];
  PSeq "" 176 10%N [175] [((1)%Z, (1)%Z); ((1)%Z, (1)%Z)] [] true;
  PSeq "definition" 177 256%N [174; 194; 176; 194; 133] [((1)%Z, (1)%Z); ((0)%Z, (-1)%Z); ((1)%Z, (1)%Z); ((0)%Z, (-1)%Z); ((1)%Z, (1)%Z)] [] false;
  PChar "" 0 false [] [];
  PSeq "" 179 10%N [178] [((1)%Z, (1)%Z); ((1)%Z, (1)%Z)] [] true;
  PSeq "" 180 2%N [194; 179] [((0)%Z, (-1)%Z); ((1)%Z, (1)%Z)] [] false;
  PSeq "" 181 2%N [179; 180; 194; 177] [((1)%Z, (1)%Z); ((0)%Z, (-1)%Z); ((0)%Z, (-1)%Z); ((1)%Z, (1)%Z)] [] false;
  PSeq "" 182 2%N [194; 181] [((0)%Z, (-1)%Z); ((1)%Z, (1)%Z)] [] false;
  PSeq "" 183 2%N [194; 181; 182] [((0)%Z, (-1)%Z); ((1)%Z, (1)%Z); ((0)%Z, (-1)%Z)] [] false;
  PSeq "" 184 258%N [177; 183] [((1)%Z, (1)%Z); ((0)%Z, (1)%Z)] [] false;
  PChar "" 0 false [] [];
  PSeq "" 186 10%N [185] [((1)%Z, (1)%Z); ((1)%Z, (1)%Z)] [] true;
  PChar "" 0 false [] [];
  PSeq "" 188 10%N [187] [((1)%Z, (1)%Z); ((1)%Z, (1)%Z)] [] true;
  PSeq "" 189 2%N [194; 186] [((0)%Z, (-1)%Z); ((1)%Z, (1)%Z)] [] false;
  PSeq "" 190 2%N [186; 189] [((1)%Z, (1)%Z); ((0)%Z, (-1)%Z)] [] false;
  PSeq "" 191 2%N [194; 188] [((0)%Z, (-1)%Z); ((1)%Z, (1)%Z)] [] false;
  PSeq "" 192 2%N [194; 188; 191] [((0)%Z, (-1)%Z); ((1)%Z, (1)%Z); ((0)%Z, (-1)%Z)] [] false;
  PChoice "" 193 262%N [15; 54] [194];
  PChoice "" 194 2%N [193] [];
  PSeq "" 195 258%N [190; 194; 184; 192] [((0)%Z, (1)%Z); ((0)%Z, (-1)%Z); ((0)%Z, (1)%Z); ((0)%Z, (1)%Z)] [] false;
  PSeq "syntax" 196 128%N [194; 195; 194] [((0)%Z, (-1)%Z); ((1)%Z, (1)%Z); ((0)%Z, (-1)%Z)] [] false
].

(** self/self.go:1430-1432 *)
Definition selfRoot : addr := 196.
Definition selfBuilderRoot : addr := 196.
