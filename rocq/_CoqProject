-Q theories Verif
theories/Model/Cpp.v
theories/Model/Floats.v
theories/Model/Box.v
theories/Model/Events.v
theories/Model/EventSets.v
theories/Model/Matches.v
theories/Model/Scorers.v
theories/Model/Matcher.v
theories/Model/Assessment.v
theories/Model/Bootstrap.v
theories/Model/Mapper.v
theories/Model/Stream.v
theories/Model/Reader.v
theories/Model/Output.v
theories/Model/Options.v
theories/Model/Tool.v
theories/Spec/Geometry.v
theories/Proofs/Geometry.v
theories/Props/P01_Geometry.v
theories/Spec/Order.v
theories/Proofs/Order.v
theories/Props/P02_Order.v
theories/Spec/Sets.v
theories/Proofs/Sets.v
theories/Props/P03_EventSets.v
theories/Spec/Objects.v
theories/Proofs/Objects.v
theories/Props/P04_Matches.v
theories/Props/P05_Scorers.v
theories/Spec/Matching.v
theories/Proofs/Matching.v
theories/Props/P06_Matcher.v
theories/Spec/Grouping.v
theories/Proofs/Grouping.v
theories/Props/P07_Grouping.v
theories/Spec/Collapse.v
theories/Proofs/Collapse.v
theories/Props/P08_Collapse.v
theories/Spec/Metrics.v
theories/Proofs/Metrics.v
theories/Proofs/AveragePrecision.v
theories/Props/P09_Metrics.v
theories/Proofs/Ndcg.v
theories/Props/P10_Ndcg.v
theories/Proofs/FloatFacts.v
theories/Spec/Scorers.v
theories/Proofs/Scorers.v
theories/Spec/Curves.v
theories/Proofs/Curves.v
theories/Proofs/Rescore.v
theories/Proofs/MeanCurve.v
theories/Props/P11_Curves.v
theories/Spec/Double.v
theories/Proofs/Double.v
theories/Props/P12_Double.v
theories/Proofs/Rational.v
theories/Spec/Bootstrap.v
theories/Proofs/Bootstrap.v
theories/Props/P13_Bootstrap.v
theories/Spec/Mapper.v
theories/Proofs/Mapper.v
theories/Props/P14_Mapper.v
theories/Spec/Reader.v
theories/Proofs/Reader.v
theories/Props/P15_Reader.v
theories/Spec/Options.v
theories/Proofs/Options.v
theories/Props/P16_Options.v
theories/Spec/Tool.v
theories/Proofs/Queries.v
theories/Proofs/Tool.v
theories/Proofs/Finish.v
theories/Proofs/Programs.v
theories/Proofs/Evaluation.v
theories/Proofs/Ids.v
theories/Proofs/Instances.v
theories/Proofs/Runs.v
theories/Proofs/Compute.v
theories/Proofs/Lines.v
theories/Proofs/Results.v
theories/Props/P17_Tool.v
theories/Spec/Gain.v
theories/Spec/Results.v
theories/Proofs/Gain.v
theories/Proofs/Printed.v
theories/Props/P18_Results.v
theories/Spec/Command.v
theories/Proofs/Command.v
theories/Props/P19_Command.v
theories/Model/Text.v
theories/Spec/Text.v
theories/Proofs/Text.v
theories/Proofs/Digits.v
theories/Proofs/Dump.v
theories/Proofs/Written.v
theories/Props/P20_Text.v
theories/Props/P21_Written.v
theories/Spec/Messages.v
theories/Proofs/Messages.v
theories/Props/P22_Messages.v
theories/Proofs/UnitTests.v
theories/Spec/Libm.v
theories/Spec/Samples.v
theories/Proofs/GainD.v
theories/Proofs/Samples.v
theories/Props/P23_Samples.v
theories/Model/Engine.v
theories/Spec/Engine.v
theories/Spec/Errors.v
theories/Proofs/Engine.v
theories/Proofs/Errors.v
theories/Props/P24_Engine.v
theories/Proofs/Ties.v
theories/Spec/Parts.v
theories/Spec/Better.v
theories/Spec/Added.v
theories/Proofs/Parts.v
theories/Proofs/Better.v
theories/Proofs/Raised.v
theories/Proofs/Hoist.v
theories/Proofs/Lifted.v
theories/Proofs/Insert.v
theories/Proofs/Renumber.v
theories/Proofs/Added.v
theories/Props/P25_Ties.v
theories/Props/P26_Parts.v
theories/Props/P27_Better.v
theories/Props/P28_Raised.v
theories/Props/P29_Added.v
theories/Props/P30_Order.v
theories/Spec/Unfound.v
theories/Proofs/Unfound.v
theories/Props/P31_Unfound.v
theories/Spec/Found.v
theories/Proofs/Found.v
theories/Props/P32_Found.v
theories/Spec/Again.v
theories/Proofs/Again.v
theories/Props/P33_Again.v
theories/Spec/Names.v
theories/Proofs/Names.v
theories/Props/P34_Names.v
theories/Spec/Where.v
theories/Proofs/Where.v
theories/Props/P35_Where.v
theories/Spec/Scale.v
theories/Proofs/Scale.v
theories/Props/P36_Scale.v
theories/Spec/Settings.v
theories/Proofs/Settings.v
theories/Props/P37_Settings.v
theories/Spec/Perfect.v
theories/Proofs/Perfect.v
theories/Props/P38_Perfect.v
theories/Spec/Selected.v
theories/Proofs/Selected.v
theories/Props/P39_Selected.v
theories/Spec/Intervals.v
theories/Proofs/Intervals.v
theories/Props/P40_Intervals.v
theories/Model/Single.v
theories/Spec/Single.v
theories/Proofs/Single.v
theories/Props/P41_Single.v
theories/Proofs/Rejected.v
theories/Props/P42_Rejected.v
theories/Proofs/Uncontested.v
theories/Props/P43_Uncontested.v
theories/Spec/Rounded.v
theories/Proofs/CurvesD.v
theories/Props/P44_Rounded.v
theories/Proofs/CurvesE.v
theories/Props/P45_Near.v
theories/Proofs/OneCurve.v
theories/Props/P46_OneCurve.v
theories/Spec/MeanParts.v
theories/Proofs/MeanParts.v
theories/Props/P47_MeanParts.v
theories/Spec/Lower.v
theories/Proofs/BetterCurve.v
theories/Proofs/RaisedCurve.v
theories/Props/P48_BetterCurve.v
theories/Spec/Registered.v
theories/Props/P49_Registered.v
