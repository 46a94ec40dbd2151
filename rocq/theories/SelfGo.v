(** Written by tools/selfgo.py: the function Parse of self/self.go without white space. *)
From Coq Require Import String List.
Import ListNotations.
Local Open Scope string_scope.
Definition selfGo : list string := [
"funcParse(rio.Reader)(*Node,error){varp196=sequenceParser{id:196,commit:128,ranges:[][]int{{0,-1},{1,1},{0,-1}}}varp194=choiceParser{id:194,commit:2}varp193=choiceParser{id:193,commit:262,name:""wsc"",generalizations:[]int{194}}varp15=choiceParser{id:15,commit:258,name:""wschar"",generalizations:[]int{193,194}}varp2=sequenceParser{id:2,commit:10,allChars:true,ranges:[][]int{{1,1},{1,1}},generalizations:[]int{15,193,194}}varp1=charParser{id:1,chars:[]rune{32}}p2.items=[]parser{&p1}varp4=sequenceParser{id:4,commit:10,allChars:true,ranges:[][]int{{1,1},{1,1}},generalizations:[]int{15,193,194}}varp3=charParser{id:3,chars:[]rune{9}}p4.items=[]parser{&p3}varp6=sequenceParser{id:6,commit:10,allChars:true,ranges:[][]int{{1,1},{1,1}},generalizations:[]int{15,193,194}}varp5=charParser{id:5,chars:[]rune{";
"10}}p6.items=[]parser{&p5}varp8=sequenceParser{id:8,commit:10,allChars:true,ranges:[][]int{{1,1},{1,1}},generalizations:[]int{15,193,194}}varp7=charParser{id:7,chars:[]rune{8}}p8.items=[]parser{&p7}varp10=sequenceParser{id:10,commit:10,allChars:true,ranges:[][]int{{1,1},{1,1}},generalizations:[]int{15,193,194}}varp9=charParser{id:9,chars:[]rune{12}}p10.items=[]parser{&p9}varp12=sequenceParser{id:12,commit:10,allChars:true,ranges:[][]int{{1,1},{1,1}},generalizations:[]int{15,193,194}}varp11=charParser{id:11,chars:[]rune{13}}p12.items=[]parser{&p11}varp14=sequenceParser{id:14,commit:10,allChars:true,ranges:[][]int{{1,1},{1,1}},generalizations:[]int{15,193,194}}varp13=charParser{id:13,chars:[]rune{11}}p14.items=[]parser{&p13}p15.options=[]parser{&p2,&p4,&p6,&p8,&p10,&p12,&p14}varp54=sequenceP";
"arser{id:54,commit:264,name:""comment"",ranges:[][]int{{1,1},{0,-1},{1,1},{0,-1}},generalizations:[]int{193,194}}varp37=choiceParser{id:37,commit:266,name:""comment-segment""}varp36=sequenceParser{id:36,commit:266,name:""line-comment"",ranges:[][]int{{1,1},{0,-1},{1,1},{0,-1}},generalizations:[]int{37}}varp33=sequenceParser{id:33,commit:10,allChars:true,ranges:[][]int{{1,1},{1,1},{1,1},{1,1}}}varp31=charParser{id:31,chars:[]rune{47}}varp32=charParser{id:32,chars:[]rune{47}}p33.items=[]parser{&p31,&p32}varp35=sequenceParser{id:35,commit:10,allChars:true,ranges:[][]int{{1,1},{1,1}}}varp34=charParser{id:34,not:true,chars:[]rune{10}}p35.items=[]parser{&p34}p36.items=[]parser{&p33,&p35}varp30=sequenceParser{id:30,commit:266,name:""block-comment"",ranges:[][]int{{1,1},{0,-1},{1,1},{1,1},{0,-1},{1,1}},ge";
"neralizations:[]int{37}}varp18=sequenceParser{id:18,commit:10,allChars:true,ranges:[][]int{{1,1},{1,1},{1,1},{1,1}}}varp16=charParser{id:16,chars:[]rune{47}}varp17=charParser{id:17,chars:[]rune{42}}p18.items=[]parser{&p16,&p17}varp26=choiceParser{id:26,commit:10}varp23=sequenceParser{id:23,commit:10,ranges:[][]int{{1,1},{1,1},{1,1},{1,1}},generalizations:[]int{26}}varp20=sequenceParser{id:20,commit:10,allChars:true,ranges:[][]int{{1,1},{1,1}}}varp19=charParser{id:19,chars:[]rune{42}}p20.items=[]parser{&p19}varp22=sequenceParser{id:22,commit:10,allChars:true,ranges:[][]int{{1,1},{1,1}}}varp21=charParser{id:21,not:true,chars:[]rune{47}}p22.items=[]parser{&p21}p23.items=[]parser{&p20,&p22}varp25=sequenceParser{id:25,commit:10,allChars:true,ranges:[][]int{{1,1},{1,1}},generalizations:[]int{26}";
"}varp24=charParser{id:24,not:true,chars:[]rune{42}}p25.items=[]parser{&p24}p26.options=[]parser{&p23,&p25}varp29=sequenceParser{id:29,commit:10,allChars:true,ranges:[][]int{{1,1},{1,1},{1,1},{1,1}}}varp27=charParser{id:27,chars:[]rune{42}}varp28=charParser{id:28,chars:[]rune{47}}p29.items=[]parser{&p27,&p28}p30.items=[]parser{&p18,&p26,&p29}p37.options=[]parser{&p36,&p30}varp53=sequenceParser{id:53,commit:10,ranges:[][]int{{0,-1},{0,1},{0,-1},{1,1},{0,-1},{0,1},{0,-1},{1,1}}}varp50=choiceParser{id:50,commit:266,name:""ws-no-nl""}varp39=sequenceParser{id:39,commit:10,allChars:true,ranges:[][]int{{1,1},{1,1}},generalizations:[]int{50}}varp38=charParser{id:38,chars:[]rune{32}}p39.items=[]parser{&p38}varp41=sequenceParser{id:41,commit:10,allChars:true,ranges:[][]int{{1,1},{1,1}},generalizations:";
"[]int{50}}varp40=charParser{id:40,chars:[]rune{9}}p41.items=[]parser{&p40}varp43=sequenceParser{id:43,commit:10,allChars:true,ranges:[][]int{{1,1},{1,1}},generalizations:[]int{50}}varp42=charParser{id:42,chars:[]rune{8}}p43.items=[]parser{&p42}varp45=sequenceParser{id:45,commit:10,allChars:true,ranges:[][]int{{1,1},{1,1}},generalizations:[]int{50}}varp44=charParser{id:44,chars:[]rune{12}}p45.items=[]parser{&p44}varp47=sequenceParser{id:47,commit:10,allChars:true,ranges:[][]int{{1,1},{1,1}},generalizations:[]int{50}}varp46=charParser{id:46,chars:[]rune{13}}p47.items=[]parser{&p46}varp49=sequenceParser{id:49,commit:10,allChars:true,ranges:[][]int{{1,1},{1,1}},generalizations:[]int{50}}varp48=charParser{id:48,chars:[]rune{11}}p49.items=[]parser{&p48}p50.options=[]parser{&p39,&p41,&p43,&p45,&p";
"47,&p49}varp52=sequenceParser{id:52,commit:10,allChars:true,ranges:[][]int{{1,1},{1,1}}}varp51=charParser{id:51,chars:[]rune{10}}p52.items=[]parser{&p51}p53.items=[]parser{&p50,&p52,&p50,&p37}p54.items=[]parser{&p37,&p53}p193.options=[]parser{&p15,&p54}p194.options=[]parser{&p193}varp195=sequenceParser{id:195,commit:258,name:""syntax:wsroot"",ranges:[][]int{{0,1},{0,-1},{0,1},{0,1}}}varp190=sequenceParser{id:190,commit:2,ranges:[][]int{{1,1},{0,-1}}}varp186=sequenceParser{id:186,commit:10,allChars:true,ranges:[][]int{{1,1},{1,1}}}varp185=charParser{id:185,chars:[]rune{59}}p186.items=[]parser{&p185}varp189=sequenceParser{id:189,commit:2,ranges:[][]int{{0,-1},{1,1}}}p189.items=[]parser{&p194,&p186}p190.items=[]parser{&p186,&p189}varp184=sequenceParser{id:184,commit:258,name:""definitions"",range";
"s:[][]int{{1,1},{0,1}}}varp177=sequenceParser{id:177,commit:256,name:""definition"",ranges:[][]int{{1,1},{0,-1},{1,1},{0,-1},{1,1}}}varp174=sequenceParser{id:174,commit:266,name:""definition-name"",ranges:[][]int{{1,1},{0,-1},{1,1},{0,-1}}}varp92=sequenceParser{id:92,commit:264,name:""symbol"",ranges:[][]int{{1,-1},{1,-1}},generalizations:[]int{133,123,127}}varp91=sequenceParser{id:91,commit:10,allChars:true,ranges:[][]int{{1,1},{1,1}}}varp90=charParser{id:90,not:true,chars:[]rune{92,32,10,9,8,12,13,11,47,46,91,93,34,123,125,94,43,42,63,124,40,41,58,61,59}}p91.items=[]parser{&p90}p92.items=[]parser{&p91}varp173=sequenceParser{id:173,commit:10,ranges:[][]int{{1,1},{1,1},{1,1},{1,1}}}varp172=sequenceParser{id:172,commit:10,allChars:true,ranges:[][]int{{1,1},{1,1}}}varp171=charParser{id:171,chars:[";
"]rune{58}}p172.items=[]parser{&p171}varp170=choiceParser{id:170,commit:258,name:""flag""}varp139=sequenceParser{id:139,commit:264,name:""alias"",allChars:true,ranges:[][]int{{1,1},{1,1},{1,1},{1,1},{1,1},{1,1},{1,1},{1,1},{1,1},{1,1}},generalizations:[]int{170}}varp134=charParser{id:134,chars:[]rune{97}}varp135=charParser{id:135,chars:[]rune{108}}varp136=charParser{id:136,chars:[]rune{105}}varp137=charParser{id:137,chars:[]rune{97}}varp138=charParser{id:138,chars:[]rune{115}}p139.items=[]parser{&p134,&p135,&p136,&p137,&p138}varp142=sequenceParser{id:142,commit:264,name:""ws"",allChars:true,ranges:[][]int{{1,1},{1,1},{1,1},{1,1}},generalizations:[]int{170}}varp140=charParser{id:140,chars:[]rune{119}}varp141=charParser{id:141,chars:[]rune{115}}p142.items=[]parser{&p140,&p141}varp147=sequenceParser";
"{id:147,commit:264,name:""nows"",allChars:true,ranges:[][]int{{1,1},{1,1},{1,1},{1,1},{1,1},{1,1},{1,1},{1,1}},generalizations:[]int{170}}varp143=charParser{id:143,chars:[]rune{110}}varp144=charParser{id:144,chars:[]rune{111}}varp145=charParser{id:145,chars:[]rune{119}}varp146=charParser{id:146,chars:[]rune{115}}p147.items=[]parser{&p143,&p144,&p145,&p146}varp150=sequenceParser{id:150,commit:264,name:""kw"",allChars:true,ranges:[][]int{{1,1},{1,1},{1,1},{1,1}},generalizations:[]int{170}}varp148=charParser{id:148,chars:[]rune{107}}varp149=charParser{id:149,chars:[]rune{119}}p150.items=[]parser{&p148,&p149}varp155=sequenceParser{id:155,commit:264,name:""nokw"",allChars:true,ranges:[][]int{{1,1},{1,1},{1,1},{1,1},{1,1},{1,1},{1,1},{1,1}},generalizations:[]int{170}}varp151=charParser{id:151,chars:[]";
"rune{110}}varp152=charParser{id:152,chars:[]rune{111}}varp153=charParser{id:153,chars:[]rune{107}}varp154=charParser{id:154,chars:[]rune{119}}p155.items=[]parser{&p151,&p152,&p153,&p154}varp164=sequenceParser{id:164,commit:264,name:""failpass"",allChars:true,ranges:[][]int{{1,1},{1,1},{1,1},{1,1},{1,1},{1,1},{1,1},{1,1},{1,1},{1,1},{1,1},{1,1},{1,1},{1,1},{1,1},{1,1}},generalizations:[]int{170}}varp156=charParser{id:156,chars:[]rune{102}}varp157=charParser{id:157,chars:[]rune{97}}varp158=charParser{id:158,chars:[]rune{105}}varp159=charParser{id:159,chars:[]rune{108}}varp160=charParser{id:160,chars:[]rune{112}}varp161=charParser{id:161,chars:[]rune{97}}varp162=charParser{id:162,chars:[]rune{115}}varp163=charParser{id:163,chars:[]rune{115}}p164.items=[]parser{&p156,&p157,&p158,&p159,&p160,&p16";
"1,&p162,&p163}varp169=sequenceParser{id:169,commit:264,name:""root"",allChars:true,ranges:[][]int{{1,1},{1,1},{1,1},{1,1},{1,1},{1,1},{1,1},{1,1}},generalizations:[]int{170}}varp165=charParser{id:165,chars:[]rune{114}}varp166=charParser{id:166,chars:[]rune{111}}varp167=charParser{id:167,chars:[]rune{111}}varp168=charParser{id:168,chars:[]rune{116}}p169.items=[]parser{&p165,&p166,&p167,&p168}p170.options=[]parser{&p139,&p142,&p147,&p150,&p155,&p164,&p169}p173.items=[]parser{&p172,&p170}p174.items=[]parser{&p92,&p173}varp176=sequenceParser{id:176,commit:10,allChars:true,ranges:[][]int{{1,1},{1,1}}}varp175=charParser{id:175,chars:[]rune{61}}p176.items=[]parser{&p175}varp133=choiceParser{id:133,commit:258,name:""expression""}varp89=choiceParser{id:89,commit:258,name:""terminal"",generalizations:[]in";
"t{133,123,127}}varp56=sequenceParser{id:56,commit:264,name:""any-char"",allChars:true,ranges:[][]int{{1,1},{1,1}},generalizations:[]int{89,133,123,127}}varp55=charParser{id:55,chars:[]rune{46}}p56.items=[]parser{&p55}varp75=sequenceParser{id:75,commit:264,name:""char-class"",ranges:[][]int{{1,1},{0,1},{0,-1},{1,1},{1,1},{0,1},{0,-1},{1,1}},generalizations:[]int{89,133,123,127}}varp71=sequenceParser{id:71,commit:10,allChars:true,ranges:[][]int{{1,1},{1,1}}}varp70=charParser{id:70,chars:[]rune{91}}p71.items=[]parser{&p70}varp58=sequenceParser{id:58,commit:264,name:""class-not"",allChars:true,ranges:[][]int{{1,1},{1,1}}}varp57=charParser{id:57,chars:[]rune{94}}p58.items=[]parser{&p57}varp72=choiceParser{id:72,commit:10}varp66=choiceParser{id:66,commit:264,name:""class-char"",generalizations:[]int{72}";
"}varp60=sequenceParser{id:60,commit:10,allChars:true,ranges:[][]int{{1,1},{1,1}},generalizations:[]int{66,72}}varp59=charParser{id:59,not:true,chars:[]rune{92,91,93,94,45}}p60.items=[]parser{&p59}varp65=sequenceParser{id:65,commit:10,ranges:[][]int{{1,1},{1,1},{1,1},{1,1}},generalizations:[]int{66,72}}varp62=sequenceParser{id:62,commit:10,allChars:true,ranges:[][]int{{1,1},{1,1}}}varp61=charParser{id:61,chars:[]rune{92}}p62.items=[]parser{&p61}varp64=sequenceParser{id:64,commit:10,allChars:true,ranges:[][]int{{1,1},{1,1}}}varp63=charParser{id:63,not:true}p64.items=[]parser{&p63}p65.items=[]parser{&p62,&p64}p66.options=[]parser{&p60,&p65}varp69=sequenceParser{id:69,commit:264,name:""char-range"",ranges:[][]int{{1,1},{1,1},{1,1},{1,1},{1,1},{1,1}},generalizations:[]int{72}}varp68=sequenceParse";
"r{id:68,commit:10,allChars:true,ranges:[][]int{{1,1},{1,1}}}varp67=charParser{id:67,chars:[]rune{45}}p68.items=[]parser{&p67}p69.items=[]parser{&p66,&p68,&p66}p72.options=[]parser{&p66,&p69}varp74=sequenceParser{id:74,commit:10,allChars:true,ranges:[][]int{{1,1},{1,1}}}varp73=charParser{id:73,chars:[]rune{93}}p74.items=[]parser{&p73}p75.items=[]parser{&p71,&p58,&p72,&p74}varp88=sequenceParser{id:88,commit:264,name:""char-sequence"",ranges:[][]int{{1,1},{0,-1},{1,1},{1,1},{0,-1},{1,1}},generalizations:[]int{89,133,123,127}}varp85=sequenceParser{id:85,commit:10,allChars:true,ranges:[][]int{{1,1},{1,1}}}varp84=charParser{id:84,chars:[]rune{34}}p85.items=[]parser{&p84}varp83=choiceParser{id:83,commit:264,name:""sequence-char""}varp77=sequenceParser{id:77,commit:10,allChars:true,ranges:[][]int{{1,1";
"},{1,1}},generalizations:[]int{83}}varp76=charParser{id:76,not:true,chars:[]rune{92,34}}p77.items=[]parser{&p76}varp82=sequenceParser{id:82,commit:10,ranges:[][]int{{1,1},{1,1},{1,1},{1,1}},generalizations:[]int{83}}varp79=sequenceParser{id:79,commit:10,allChars:true,ranges:[][]int{{1,1},{1,1}}}varp78=charParser{id:78,chars:[]rune{92}}p79.items=[]parser{&p78}varp81=sequenceParser{id:81,commit:10,allChars:true,ranges:[][]int{{1,1},{1,1}}}varp80=charParser{id:80,not:true}p81.items=[]parser{&p80}p82.items=[]parser{&p79,&p81}p83.options=[]parser{&p77,&p82}varp87=sequenceParser{id:87,commit:10,allChars:true,ranges:[][]int{{1,1},{1,1}}}varp86=charParser{id:86,chars:[]rune{34}}p87.items=[]parser{&p86}p88.items=[]parser{&p85,&p83,&p87}p89.options=[]parser{&p56,&p75,&p88}varp97=sequenceParser{id:97";
",commit:258,name:""group"",ranges:[][]int{{1,1},{0,-1},{1,1},{0,-1},{1,1}},generalizations:[]int{133,123,127}}varp94=sequenceParser{id:94,commit:10,allChars:true,ranges:[][]int{{1,1},{1,1}}}varp93=charParser{id:93,chars:[]rune{40}}p94.items=[]parser{&p93}varp96=sequenceParser{id:96,commit:10,allChars:true,ranges:[][]int{{1,1},{1,1}}}varp95=charParser{id:95,chars:[]rune{41}}p96.items=[]parser{&p95}p97.items=[]parser{&p94,&p194,&p133,&p194,&p96}varp126=sequenceParser{id:126,commit:256,name:""sequence"",ranges:[][]int{{1,1},{0,-1}},generalizations:[]int{133,127}}varp124=sequenceParser{id:124,commit:264,name:""item"",ranges:[][]int{{1,1},{0,1},{1,1},{0,1}}}varp123=choiceParser{id:123,commit:10}p123.options=[]parser{&p89,&p92,&p97}varp122=choiceParser{id:122,commit:258,name:""quantity""}varp106=sequenc";
"eParser{id:106,commit:256,name:""count-quantifier"",ranges:[][]int{{1,1},{0,-1},{1,1},{0,-1},{1,1}},generalizations:[]int{122}}varp103=sequenceParser{id:103,commit:10,allChars:true,ranges:[][]int{{1,1},{1,1}}}varp102=charParser{id:102,chars:[]rune{123}}p103.items=[]parser{&p102}varp101=sequenceParser{id:101,commit:256,name:""count"",ranges:[][]int{{1,1}}}varp100=sequenceParser{id:100,commit:266,name:""number"",ranges:[][]int{{1,-1},{1,-1}}}varp99=sequenceParser{id:99,commit:10,allChars:true,ranges:[][]int{{1,1},{1,1}}}varp98=charParser{id:98,ranges:[][]rune{{48,57}}}p99.items=[]parser{&p98}p100.items=[]parser{&p99}p101.items=[]parser{&p100}varp105=sequenceParser{id:105,commit:10,allChars:true,ranges:[][]int{{1,1},{1,1}}}varp104=charParser{id:104,chars:[]rune{125}}p105.items=[]parser{&p104}p106.i";
"tems=[]parser{&p103,&p194,&p101,&p194,&p105}varp115=sequenceParser{id:115,commit:256,name:""range-quantifier"",ranges:[][]int{{1,1},{0,-1},{0,1},{0,-1},{1,1},{0,-1},{0,1},{0,-1},{1,1}},generalizations:[]int{122}}varp110=sequenceParser{id:110,commit:10,allChars:true,ranges:[][]int{{1,1},{1,1}}}varp109=charParser{id:109,chars:[]rune{123}}p110.items=[]parser{&p109}varp107=sequenceParser{id:107,commit:256,name:""range-from"",ranges:[][]int{{1,1}}}p107.items=[]parser{&p100}varp112=sequenceParser{id:112,commit:10,allChars:true,ranges:[][]int{{1,1},{1,1}}}varp111=charParser{id:111,chars:[]rune{44}}p112.items=[]parser{&p111}varp108=sequenceParser{id:108,commit:256,name:""range-to"",ranges:[][]int{{1,1}}}p108.items=[]parser{&p100}varp114=sequenceParser{id:114,commit:10,allChars:true,ranges:[][]int{{1,1},";
"{1,1}}}varp113=charParser{id:113,chars:[]rune{125}}p114.items=[]parser{&p113}p115.items=[]parser{&p110,&p194,&p107,&p194,&p112,&p194,&p108,&p194,&p114}varp117=sequenceParser{id:117,commit:264,name:""one-or-more"",allChars:true,ranges:[][]int{{1,1},{1,1}},generalizations:[]int{122}}varp116=charParser{id:116,chars:[]rune{43}}p117.items=[]parser{&p116}varp119=sequenceParser{id:119,commit:264,name:""zero-or-more"",allChars:true,ranges:[][]int{{1,1},{1,1}},generalizations:[]int{122}}varp118=charParser{id:118,chars:[]rune{42}}p119.items=[]parser{&p118}varp121=sequenceParser{id:121,commit:264,name:""zero-or-one"",allChars:true,ranges:[][]int{{1,1},{1,1}},generalizations:[]int{122}}varp120=charParser{id:120,chars:[]rune{63}}p121.items=[]parser{&p120}p122.options=[]parser{&p106,&p115,&p117,&p119,&p121}p1";
"24.items=[]parser{&p123,&p122}varp125=sequenceParser{id:125,commit:2,ranges:[][]int{{0,-1},{1,1}}}p125.items=[]parser{&p194,&p124}p126.items=[]parser{&p124,&p125}varp132=sequenceParser{id:132,commit:256,name:""choice"",ranges:[][]int{{1,1},{0,-1},{1,1},{0,-1}},generalizations:[]int{133}}varp127=choiceParser{id:127,commit:258,name:""option""}p127.options=[]parser{&p89,&p92,&p97,&p126}varp130=sequenceParser{id:130,commit:2,ranges:[][]int{{1,1},{0,-1},{1,1}}}varp129=sequenceParser{id:129,commit:10,allChars:true,ranges:[][]int{{1,1},{1,1}}}varp128=charParser{id:128,chars:[]rune{124}}p129.items=[]parser{&p128}p130.items=[]parser{&p129,&p194,&p127}varp131=sequenceParser{id:131,commit:2,ranges:[][]int{{0,-1},{1,1}}}p131.items=[]parser{&p194,&p130}p132.items=[]parser{&p127,&p194,&p130,&p131}p133.optio";
"ns=[]parser{&p89,&p92,&p97,&p126,&p132}p177.items=[]parser{&p174,&p194,&p176,&p194,&p133}varp183=sequenceParser{id:183,commit:2,ranges:[][]int{{0,-1},{1,1},{0,-1}}}varp181=sequenceParser{id:181,commit:2,ranges:[][]int{{1,1},{0,-1},{0,-1},{1,1}}}varp179=sequenceParser{id:179,commit:10,allChars:true,ranges:[][]int{{1,1},{1,1}}}varp178=charParser{id:178,chars:[]rune{59}}p179.items=[]parser{&p178}varp180=sequenceParser{id:180,commit:2,ranges:[][]int{{0,-1},{1,1}}}p180.items=[]parser{&p194,&p179}p181.items=[]parser{&p179,&p180,&p194,&p177}varp182=sequenceParser{id:182,commit:2,ranges:[][]int{{0,-1},{1,1}}}p182.items=[]parser{&p194,&p181}p183.items=[]parser{&p194,&p181,&p182}p184.items=[]parser{&p177,&p183}varp192=sequenceParser{id:192,commit:2,ranges:[][]int{{0,-1},{1,1},{0,-1}}}varp188=sequenc";
"eParser{id:188,commit:10,allChars:true,ranges:[][]int{{1,1},{1,1}}}varp187=charParser{id:187,chars:[]rune{59}}p188.items=[]parser{&p187}varp191=sequenceParser{id:191,commit:2,ranges:[][]int{{0,-1},{1,1}}}p191.items=[]parser{&p194,&p188}p192.items=[]parser{&p194,&p188,&p191}p195.items=[]parser{&p190,&p194,&p184,&p192}p196.items=[]parser{&p194,&p195,&p194}varb196=sequenceBuilder{id:196,commit:128,name:""syntax"",ranges:[][]int{{0,-1},{1,1},{0,-1}}}varb194=choiceBuilder{id:194,commit:2}varb193=choiceBuilder{id:193,commit:262,generalizations:[]int{194}}varb15=choiceBuilder{id:15,commit:258,generalizations:[]int{193,194}}varb2=sequenceBuilder{id:2,commit:10,allChars:true,ranges:[][]int{{1,1},{1,1}},generalizations:[]int{15,193,194}}varb1=charBuilder{}b2.items=[]builder{&b1}varb4=sequenceBuilder{i";
"d:4,commit:10,allChars:true,ranges:[][]int{{1,1},{1,1}},generalizations:[]int{15,193,194}}varb3=charBuilder{}b4.items=[]builder{&b3}varb6=sequenceBuilder{id:6,commit:10,allChars:true,ranges:[][]int{{1,1},{1,1}},generalizations:[]int{15,193,194}}varb5=charBuilder{}b6.items=[]builder{&b5}varb8=sequenceBuilder{id:8,commit:10,allChars:true,ranges:[][]int{{1,1},{1,1}},generalizations:[]int{15,193,194}}varb7=charBuilder{}b8.items=[]builder{&b7}varb10=sequenceBuilder{id:10,commit:10,allChars:true,ranges:[][]int{{1,1},{1,1}},generalizations:[]int{15,193,194}}varb9=charBuilder{}b10.items=[]builder{&b9}varb12=sequenceBuilder{id:12,commit:10,allChars:true,ranges:[][]int{{1,1},{1,1}},generalizations:[]int{15,193,194}}varb11=charBuilder{}b12.items=[]builder{&b11}varb14=sequenceBuilder{id:14,commit:10,a";
"llChars:true,ranges:[][]int{{1,1},{1,1}},generalizations:[]int{15,193,194}}varb13=charBuilder{}b14.items=[]builder{&b13}b15.options=[]builder{&b2,&b4,&b6,&b8,&b10,&b12,&b14}varb54=sequenceBuilder{id:54,commit:264,name:""comment"",ranges:[][]int{{1,1},{0,-1},{1,1},{0,-1}},generalizations:[]int{193,194}}varb37=choiceBuilder{id:37,commit:266}varb36=sequenceBuilder{id:36,commit:266,ranges:[][]int{{1,1},{0,-1},{1,1},{0,-1}},generalizations:[]int{37}}varb33=sequenceBuilder{id:33,commit:10,allChars:true,ranges:[][]int{{1,1},{1,1},{1,1},{1,1}}}varb31=charBuilder{}varb32=charBuilder{}b33.items=[]builder{&b31,&b32}varb35=sequenceBuilder{id:35,commit:10,allChars:true,ranges:[][]int{{1,1},{1,1}}}varb34=charBuilder{}b35.items=[]builder{&b34}b36.items=[]builder{&b33,&b35}varb30=sequenceBuilder{id:30,commi";
"t:266,ranges:[][]int{{1,1},{0,-1},{1,1},{1,1},{0,-1},{1,1}},generalizations:[]int{37}}varb18=sequenceBuilder{id:18,commit:10,allChars:true,ranges:[][]int{{1,1},{1,1},{1,1},{1,1}}}varb16=charBuilder{}varb17=charBuilder{}b18.items=[]builder{&b16,&b17}varb26=choiceBuilder{id:26,commit:10}varb23=sequenceBuilder{id:23,commit:10,ranges:[][]int{{1,1},{1,1},{1,1},{1,1}},generalizations:[]int{26}}varb20=sequenceBuilder{id:20,commit:10,allChars:true,ranges:[][]int{{1,1},{1,1}}}varb19=charBuilder{}b20.items=[]builder{&b19}varb22=sequenceBuilder{id:22,commit:10,allChars:true,ranges:[][]int{{1,1},{1,1}}}varb21=charBuilder{}b22.items=[]builder{&b21}b23.items=[]builder{&b20,&b22}varb25=sequenceBuilder{id:25,commit:10,allChars:true,ranges:[][]int{{1,1},{1,1}},generalizations:[]int{26}}varb24=charBuilder{}";
"b25.items=[]builder{&b24}b26.options=[]builder{&b23,&b25}varb29=sequenceBuilder{id:29,commit:10,allChars:true,ranges:[][]int{{1,1},{1,1},{1,1},{1,1}}}varb27=charBuilder{}varb28=charBuilder{}b29.items=[]builder{&b27,&b28}b30.items=[]builder{&b18,&b26,&b29}b37.options=[]builder{&b36,&b30}varb53=sequenceBuilder{id:53,commit:10,ranges:[][]int{{0,-1},{0,1},{0,-1},{1,1},{0,-1},{0,1},{0,-1},{1,1}}}varb50=choiceBuilder{id:50,commit:266}varb39=sequenceBuilder{id:39,commit:10,allChars:true,ranges:[][]int{{1,1},{1,1}},generalizations:[]int{50}}varb38=charBuilder{}b39.items=[]builder{&b38}varb41=sequenceBuilder{id:41,commit:10,allChars:true,ranges:[][]int{{1,1},{1,1}},generalizations:[]int{50}}varb40=charBuilder{}b41.items=[]builder{&b40}varb43=sequenceBuilder{id:43,commit:10,allChars:true,ranges:[][]";
"int{{1,1},{1,1}},generalizations:[]int{50}}varb42=charBuilder{}b43.items=[]builder{&b42}varb45=sequenceBuilder{id:45,commit:10,allChars:true,ranges:[][]int{{1,1},{1,1}},generalizations:[]int{50}}varb44=charBuilder{}b45.items=[]builder{&b44}varb47=sequenceBuilder{id:47,commit:10,allChars:true,ranges:[][]int{{1,1},{1,1}},generalizations:[]int{50}}varb46=charBuilder{}b47.items=[]builder{&b46}varb49=sequenceBuilder{id:49,commit:10,allChars:true,ranges:[][]int{{1,1},{1,1}},generalizations:[]int{50}}varb48=charBuilder{}b49.items=[]builder{&b48}b50.options=[]builder{&b39,&b41,&b43,&b45,&b47,&b49}varb52=sequenceBuilder{id:52,commit:10,allChars:true,ranges:[][]int{{1,1},{1,1}}}varb51=charBuilder{}b52.items=[]builder{&b51}b53.items=[]builder{&b50,&b52,&b50,&b37}b54.items=[]builder{&b37,&b53}b193.opt";
"ions=[]builder{&b15,&b54}b194.options=[]builder{&b193}varb195=sequenceBuilder{id:195,commit:258,ranges:[][]int{{0,1},{0,-1},{0,1},{0,1}}}varb190=sequenceBuilder{id:190,commit:2,ranges:[][]int{{1,1},{0,-1}}}varb186=sequenceBuilder{id:186,commit:10,allChars:true,ranges:[][]int{{1,1},{1,1}}}varb185=charBuilder{}b186.items=[]builder{&b185}varb189=sequenceBuilder{id:189,commit:2,ranges:[][]int{{0,-1},{1,1}}}b189.items=[]builder{&b194,&b186}b190.items=[]builder{&b186,&b189}varb184=sequenceBuilder{id:184,commit:258,ranges:[][]int{{1,1},{0,1}}}varb177=sequenceBuilder{id:177,commit:256,name:""definition"",ranges:[][]int{{1,1},{0,-1},{1,1},{0,-1},{1,1}}}varb174=sequenceBuilder{id:174,commit:266,ranges:[][]int{{1,1},{0,-1},{1,1},{0,-1}}}varb92=sequenceBuilder{id:92,commit:264,name:""symbol"",ranges:[][]i";
"nt{{1,-1},{1,-1}},generalizations:[]int{133,123,127}}varb91=sequenceBuilder{id:91,commit:10,allChars:true,ranges:[][]int{{1,1},{1,1}}}varb90=charBuilder{}b91.items=[]builder{&b90}b92.items=[]builder{&b91}varb173=sequenceBuilder{id:173,commit:10,ranges:[][]int{{1,1},{1,1},{1,1},{1,1}}}varb172=sequenceBuilder{id:172,commit:10,allChars:true,ranges:[][]int{{1,1},{1,1}}}varb171=charBuilder{}b172.items=[]builder{&b171}varb170=choiceBuilder{id:170,commit:258}varb139=sequenceBuilder{id:139,commit:264,name:""alias"",allChars:true,ranges:[][]int{{1,1},{1,1},{1,1},{1,1},{1,1},{1,1},{1,1},{1,1},{1,1},{1,1}},generalizations:[]int{170}}varb134=charBuilder{}varb135=charBuilder{}varb136=charBuilder{}varb137=charBuilder{}varb138=charBuilder{}b139.items=[]builder{&b134,&b135,&b136,&b137,&b138}varb142=sequence";
"Builder{id:142,commit:264,name:""ws"",allChars:true,ranges:[][]int{{1,1},{1,1},{1,1},{1,1}},generalizations:[]int{170}}varb140=charBuilder{}varb141=charBuilder{}b142.items=[]builder{&b140,&b141}varb147=sequenceBuilder{id:147,commit:264,name:""nows"",allChars:true,ranges:[][]int{{1,1},{1,1},{1,1},{1,1},{1,1},{1,1},{1,1},{1,1}},generalizations:[]int{170}}varb143=charBuilder{}varb144=charBuilder{}varb145=charBuilder{}varb146=charBuilder{}b147.items=[]builder{&b143,&b144,&b145,&b146}varb150=sequenceBuilder{id:150,commit:264,name:""kw"",allChars:true,ranges:[][]int{{1,1},{1,1},{1,1},{1,1}},generalizations:[]int{170}}varb148=charBuilder{}varb149=charBuilder{}b150.items=[]builder{&b148,&b149}varb155=sequenceBuilder{id:155,commit:264,name:""nokw"",allChars:true,ranges:[][]int{{1,1},{1,1},{1,1},{1,1},{1,1}";
",{1,1},{1,1},{1,1}},generalizations:[]int{170}}varb151=charBuilder{}varb152=charBuilder{}varb153=charBuilder{}varb154=charBuilder{}b155.items=[]builder{&b151,&b152,&b153,&b154}varb164=sequenceBuilder{id:164,commit:264,name:""failpass"",allChars:true,ranges:[][]int{{1,1},{1,1},{1,1},{1,1},{1,1},{1,1},{1,1},{1,1},{1,1},{1,1},{1,1},{1,1},{1,1},{1,1},{1,1},{1,1}},generalizations:[]int{170}}varb156=charBuilder{}varb157=charBuilder{}varb158=charBuilder{}varb159=charBuilder{}varb160=charBuilder{}varb161=charBuilder{}varb162=charBuilder{}varb163=charBuilder{}b164.items=[]builder{&b156,&b157,&b158,&b159,&b160,&b161,&b162,&b163}varb169=sequenceBuilder{id:169,commit:264,name:""root"",allChars:true,ranges:[][]int{{1,1},{1,1},{1,1},{1,1},{1,1},{1,1},{1,1},{1,1}},generalizations:[]int{170}}varb165=charBuild";
"er{}varb166=charBuilder{}varb167=charBuilder{}varb168=charBuilder{}b169.items=[]builder{&b165,&b166,&b167,&b168}b170.options=[]builder{&b139,&b142,&b147,&b150,&b155,&b164,&b169}b173.items=[]builder{&b172,&b170}b174.items=[]builder{&b92,&b173}varb176=sequenceBuilder{id:176,commit:10,allChars:true,ranges:[][]int{{1,1},{1,1}}}varb175=charBuilder{}b176.items=[]builder{&b175}varb133=choiceBuilder{id:133,commit:258}varb89=choiceBuilder{id:89,commit:258,generalizations:[]int{133,123,127}}varb56=sequenceBuilder{id:56,commit:264,name:""any-char"",allChars:true,ranges:[][]int{{1,1},{1,1}},generalizations:[]int{89,133,123,127}}varb55=charBuilder{}b56.items=[]builder{&b55}varb75=sequenceBuilder{id:75,commit:264,name:""char-class"",ranges:[][]int{{1,1},{0,1},{0,-1},{1,1},{1,1},{0,1},{0,-1},{1,1}},generaliz";
"ations:[]int{89,133,123,127}}varb71=sequenceBuilder{id:71,commit:10,allChars:true,ranges:[][]int{{1,1},{1,1}}}varb70=charBuilder{}b71.items=[]builder{&b70}varb58=sequenceBuilder{id:58,commit:264,name:""class-not"",allChars:true,ranges:[][]int{{1,1},{1,1}}}varb57=charBuilder{}b58.items=[]builder{&b57}varb72=choiceBuilder{id:72,commit:10}varb66=choiceBuilder{id:66,commit:264,name:""class-char"",generalizations:[]int{72}}varb60=sequenceBuilder{id:60,commit:10,allChars:true,ranges:[][]int{{1,1},{1,1}},generalizations:[]int{66,72}}varb59=charBuilder{}b60.items=[]builder{&b59}varb65=sequenceBuilder{id:65,commit:10,ranges:[][]int{{1,1},{1,1},{1,1},{1,1}},generalizations:[]int{66,72}}varb62=sequenceBuilder{id:62,commit:10,allChars:true,ranges:[][]int{{1,1},{1,1}}}varb61=charBuilder{}b62.items=[]builde";
"r{&b61}varb64=sequenceBuilder{id:64,commit:10,allChars:true,ranges:[][]int{{1,1},{1,1}}}varb63=charBuilder{}b64.items=[]builder{&b63}b65.items=[]builder{&b62,&b64}b66.options=[]builder{&b60,&b65}varb69=sequenceBuilder{id:69,commit:264,name:""char-range"",ranges:[][]int{{1,1},{1,1},{1,1},{1,1},{1,1},{1,1}},generalizations:[]int{72}}varb68=sequenceBuilder{id:68,commit:10,allChars:true,ranges:[][]int{{1,1},{1,1}}}varb67=charBuilder{}b68.items=[]builder{&b67}b69.items=[]builder{&b66,&b68,&b66}b72.options=[]builder{&b66,&b69}varb74=sequenceBuilder{id:74,commit:10,allChars:true,ranges:[][]int{{1,1},{1,1}}}varb73=charBuilder{}b74.items=[]builder{&b73}b75.items=[]builder{&b71,&b58,&b72,&b74}varb88=sequenceBuilder{id:88,commit:264,name:""char-sequence"",ranges:[][]int{{1,1},{0,-1},{1,1},{1,1},{0,-1},{1";
",1}},generalizations:[]int{89,133,123,127}}varb85=sequenceBuilder{id:85,commit:10,allChars:true,ranges:[][]int{{1,1},{1,1}}}varb84=charBuilder{}b85.items=[]builder{&b84}varb83=choiceBuilder{id:83,commit:264,name:""sequence-char""}varb77=sequenceBuilder{id:77,commit:10,allChars:true,ranges:[][]int{{1,1},{1,1}},generalizations:[]int{83}}varb76=charBuilder{}b77.items=[]builder{&b76}varb82=sequenceBuilder{id:82,commit:10,ranges:[][]int{{1,1},{1,1},{1,1},{1,1}},generalizations:[]int{83}}varb79=sequenceBuilder{id:79,commit:10,allChars:true,ranges:[][]int{{1,1},{1,1}}}varb78=charBuilder{}b79.items=[]builder{&b78}varb81=sequenceBuilder{id:81,commit:10,allChars:true,ranges:[][]int{{1,1},{1,1}}}varb80=charBuilder{}b81.items=[]builder{&b80}b82.items=[]builder{&b79,&b81}b83.options=[]builder{&b77,&b82}v";
"arb87=sequenceBuilder{id:87,commit:10,allChars:true,ranges:[][]int{{1,1},{1,1}}}varb86=charBuilder{}b87.items=[]builder{&b86}b88.items=[]builder{&b85,&b83,&b87}b89.options=[]builder{&b56,&b75,&b88}varb97=sequenceBuilder{id:97,commit:258,ranges:[][]int{{1,1},{0,-1},{1,1},{0,-1},{1,1}},generalizations:[]int{133,123,127}}varb94=sequenceBuilder{id:94,commit:10,allChars:true,ranges:[][]int{{1,1},{1,1}}}varb93=charBuilder{}b94.items=[]builder{&b93}varb96=sequenceBuilder{id:96,commit:10,allChars:true,ranges:[][]int{{1,1},{1,1}}}varb95=charBuilder{}b96.items=[]builder{&b95}b97.items=[]builder{&b94,&b194,&b133,&b194,&b96}varb126=sequenceBuilder{id:126,commit:256,name:""sequence"",ranges:[][]int{{1,1},{0,-1}},generalizations:[]int{133,127}}varb124=sequenceBuilder{id:124,commit:264,name:""item"",ranges:[";
"][]int{{1,1},{0,1},{1,1},{0,1}}}varb123=choiceBuilder{id:123,commit:10}b123.options=[]builder{&b89,&b92,&b97}varb122=choiceBuilder{id:122,commit:258}varb106=sequenceBuilder{id:106,commit:256,name:""count-quantifier"",ranges:[][]int{{1,1},{0,-1},{1,1},{0,-1},{1,1}},generalizations:[]int{122}}varb103=sequenceBuilder{id:103,commit:10,allChars:true,ranges:[][]int{{1,1},{1,1}}}varb102=charBuilder{}b103.items=[]builder{&b102}varb101=sequenceBuilder{id:101,commit:256,name:""count"",ranges:[][]int{{1,1}}}varb100=sequenceBuilder{id:100,commit:266,ranges:[][]int{{1,-1},{1,-1}}}varb99=sequenceBuilder{id:99,commit:10,allChars:true,ranges:[][]int{{1,1},{1,1}}}varb98=charBuilder{}b99.items=[]builder{&b98}b100.items=[]builder{&b99}b101.items=[]builder{&b100}varb105=sequenceBuilder{id:105,commit:10,allChars:t";
"rue,ranges:[][]int{{1,1},{1,1}}}varb104=charBuilder{}b105.items=[]builder{&b104}b106.items=[]builder{&b103,&b194,&b101,&b194,&b105}varb115=sequenceBuilder{id:115,commit:256,name:""range-quantifier"",ranges:[][]int{{1,1},{0,-1},{0,1},{0,-1},{1,1},{0,-1},{0,1},{0,-1},{1,1}},generalizations:[]int{122}}varb110=sequenceBuilder{id:110,commit:10,allChars:true,ranges:[][]int{{1,1},{1,1}}}varb109=charBuilder{}b110.items=[]builder{&b109}varb107=sequenceBuilder{id:107,commit:256,name:""range-from"",ranges:[][]int{{1,1}}}b107.items=[]builder{&b100}varb112=sequenceBuilder{id:112,commit:10,allChars:true,ranges:[][]int{{1,1},{1,1}}}varb111=charBuilder{}b112.items=[]builder{&b111}varb108=sequenceBuilder{id:108,commit:256,name:""range-to"",ranges:[][]int{{1,1}}}b108.items=[]builder{&b100}varb114=sequenceBuilder{";
"id:114,commit:10,allChars:true,ranges:[][]int{{1,1},{1,1}}}varb113=charBuilder{}b114.items=[]builder{&b113}b115.items=[]builder{&b110,&b194,&b107,&b194,&b112,&b194,&b108,&b194,&b114}varb117=sequenceBuilder{id:117,commit:264,name:""one-or-more"",allChars:true,ranges:[][]int{{1,1},{1,1}},generalizations:[]int{122}}varb116=charBuilder{}b117.items=[]builder{&b116}varb119=sequenceBuilder{id:119,commit:264,name:""zero-or-more"",allChars:true,ranges:[][]int{{1,1},{1,1}},generalizations:[]int{122}}varb118=charBuilder{}b119.items=[]builder{&b118}varb121=sequenceBuilder{id:121,commit:264,name:""zero-or-one"",allChars:true,ranges:[][]int{{1,1},{1,1}},generalizations:[]int{122}}varb120=charBuilder{}b121.items=[]builder{&b120}b122.options=[]builder{&b106,&b115,&b117,&b119,&b121}b124.items=[]builder{&b123,&b1";
"22}varb125=sequenceBuilder{id:125,commit:2,ranges:[][]int{{0,-1},{1,1}}}b125.items=[]builder{&b194,&b124}b126.items=[]builder{&b124,&b125}varb132=sequenceBuilder{id:132,commit:256,name:""choice"",ranges:[][]int{{1,1},{0,-1},{1,1},{0,-1}},generalizations:[]int{133}}varb127=choiceBuilder{id:127,commit:258}b127.options=[]builder{&b89,&b92,&b97,&b126}varb130=sequenceBuilder{id:130,commit:2,ranges:[][]int{{1,1},{0,-1},{1,1}}}varb129=sequenceBuilder{id:129,commit:10,allChars:true,ranges:[][]int{{1,1},{1,1}}}varb128=charBuilder{}b129.items=[]builder{&b128}b130.items=[]builder{&b129,&b194,&b127}varb131=sequenceBuilder{id:131,commit:2,ranges:[][]int{{0,-1},{1,1}}}b131.items=[]builder{&b194,&b130}b132.items=[]builder{&b127,&b194,&b130,&b131}b133.options=[]builder{&b89,&b92,&b97,&b126,&b132}b177.items=";
"[]builder{&b174,&b194,&b176,&b194,&b133}varb183=sequenceBuilder{id:183,commit:2,ranges:[][]int{{0,-1},{1,1},{0,-1}}}varb181=sequenceBuilder{id:181,commit:2,ranges:[][]int{{1,1},{0,-1},{0,-1},{1,1}}}varb179=sequenceBuilder{id:179,commit:10,allChars:true,ranges:[][]int{{1,1},{1,1}}}varb178=charBuilder{}b179.items=[]builder{&b178}varb180=sequenceBuilder{id:180,commit:2,ranges:[][]int{{0,-1},{1,1}}}b180.items=[]builder{&b194,&b179}b181.items=[]builder{&b179,&b180,&b194,&b177}varb182=sequenceBuilder{id:182,commit:2,ranges:[][]int{{0,-1},{1,1}}}b182.items=[]builder{&b194,&b181}b183.items=[]builder{&b194,&b181,&b182}b184.items=[]builder{&b177,&b183}varb192=sequenceBuilder{id:192,commit:2,ranges:[][]int{{0,-1},{1,1},{0,-1}}}varb188=sequenceBuilder{id:188,commit:10,allChars:true,ranges:[][]int{{1,1";
"},{1,1}}}varb187=charBuilder{}b188.items=[]builder{&b187}varb191=sequenceBuilder{id:191,commit:2,ranges:[][]int{{0,-1},{1,1}}}b191.items=[]builder{&b194,&b188}b192.items=[]builder{&b194,&b188,&b191}b195.items=[]builder{&b190,&b194,&b184,&b192}b196.items=[]builder{&b194,&b195,&b194}varkeywords=[]parser{}returnparseInput(r,&p196,&b196,keywords)}"].
