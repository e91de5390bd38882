-Q theories Verif
theories/Base.v
theories/Num.v
theories/Img.v
theories/Spec.v
theories/Lsq.v
theories/Post.v
theories/NumFacts.v
theories/PostLines.v
theories/Sorting.v
theories/PostLines2.v
theories/PostImg.v
theories/PostImg2.v
theories/PostPersp.v
theories/LsqEx.v
theories/PostExtra.v
theories/Props_Post.v
theories/Util.v
theories/UtilFacts.v
theories/UtilFacts2.v
theories/Props_Util.v
theories/Text.v
theories/Fs.v
theories/Json.v
theories/JsonFacts.v
theories/Hdf.v
theories/Losa.v
theories/FsFacts.v
theories/LosaFacts.v
theories/LosaFacts2.v
theories/LosaFacts3.v
theories/HdfFacts.v
theories/LosaFacts4.v
theories/ImgScale.v
theories/LosaSpec.v
theories/LosaFacts5.v
theories/LosaFacts6.v
theories/Props_Losa.v
theories/PrepImg.v
theories/PrepPts.v
theories/PrepSpec.v
theories/PrepFacts.v
theories/PrepFacts2.v
theories/PrepFacts3.v
theories/PrepFacts4.v
theories/PrepFacts5.v
theories/PrepImgFacts.v
theories/PrepImgFacts2.v
theories/PrepImgFacts3.v
theories/PrepImgFacts4.v
theories/PrepImgFacts5.v
theories/PrepEx.v
theories/Props_Prep.v
theories/PrepEx2.v
theories/Props_PrepPts.v
theories/Proc.v
theories/ProcPers.v
theories/ProcSpec.v
theories/PolyUniq.v
theories/ProcFacts.v
theories/ProcFacts2.v
theories/ProcFacts3.v
theories/ProcFacts4.v
theories/ProcFacts5.v
theories/Props_Proc.v
theories/PersSpec.v
theories/PersFacts.v
theories/PersFacts2.v
theories/PersFacts3.v
theories/Props_Pers.v
theories/PersFacts4.v
theories/Props_Pers2.v
theories/PersFacts5.v
theories/PersFacts6.v
theories/PersFacts7.v
theories/PersFacts8.v
theories/Props_Pers3.v
theories/Line.v
theories/LineSpec.v
theories/LineFacts.v
theories/Props_Line.v
theories/LineFacts2.v
theories/LineFacts3.v
theories/Props_Line2.v
theories/ProfSpec.v
theories/LineFacts4.v
theories/Props_Line3.v
theories/LineFacts5.v
theories/Props_Line4.v
theories/ChessSpec.v
theories/Props_Line5.v
theories/ProcSpec2.v
theories/Props_Proc2.v
theories/Props_Line6.v
theories/Fft.v
theories/FftSpec.v
theories/Props_Fft.v
theories/CalibSpec.v
theories/CalibFacts.v
theories/Props_Calib.v
theories/CalibSpec2.v
theories/Props_Calib2.v
theories/Props_Calib3.v
theories/GridFacts.v
theories/Props_Grid.v
theories/DotFacts.v
theories/Props_Dots.v
theories/MetaFacts.v
theories/Props_Meta.v
theories/Props_Vanish.v
theories/StreamFacts.v
theories/Props_Image.v
theories/JsonSpec.v
theories/JsonFacts2.v
theories/Props_Json.v
theories/PolySpec.v
theories/PolyRowsFacts.v
theories/PolyColsFacts.v
theories/Props_PolyRows.v
theories/Props_Files.v
theories/RoundFacts.v
theories/Props_Round.v
theories/DotSpec.v
theories/ChainFacts.v
theories/ChainFacts2.v
theories/ChainFacts3.v
theories/Props_Chain.v
theories/Props_Axis.v
theories/Props_Scene.v
theories/Props_Mono.v
theories/Props_Affine.v
theories/Props_Tilt.v
theories/Props_RoundPers.v
theories/Props_Noise.v
theories/Props_Pad.v
theories/MachFacts.v
theories/Props_Machine.v
theories/Props_Found.v
theories/Props_Chunk.v
theories/Props_CalibErr.v
theories/Props_DotOrder.v
theories/Sched.v
theories/SchedFacts.v
theories/Props_Sched.v
theories/MirrorFacts.v
theories/Props_Mirror.v
theories/SymFacts.v
theories/Props_Symm.v
theories/Props_Held.v
theories/Props_HeldImage.v
theories/Props_Slice.v
theories/Props_FourPoints.v
theories/Props_Centres.v
theories/Props_Exposure.v
theories/Props_PadScene.v
theories/Props_Marks.v
theories/Props_TwoSteps.v
theories/Props_Centred.v
theories/Props_Steady.v
theories/Props_Model.v
theories/Props_Steady2.v
theories/Props_PersSteady.v
theories/Props_PersSteady2.v
