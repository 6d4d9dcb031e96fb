(** Source text, copied byte for byte: src/hblas/fortran/hblas1/*.f (a double quote would be doubled; there is none). *)
From Coq Require Import String.
Local Open Scope string_scope.
(** src/hblas/fortran/hblas1/haxpych.f, all 74 lines *)
Definition src_haxpych : string := "C 
C     This file is a part of HAXX
C     
C     Copyright (c) 2017 David Williams-Young
C     All rights reserved.
C     
C     See LICENSE.txt 
C
      Subroutine HAXPYCH(SIDE, N, ALPHA, X, INCX, Y, INCY)
C
      LOGICAL LSAME
      EXTERNAL LSAME
C
      LOGICAL   MRIGHT
      CHARACTER SIDE
      INTEGER*4 N, INCX, INCY, I, IX, IY
      REAL*8    ALPHA(2), X(4,*), Y(4,*)
C
      IF ( N.LE.0 ) RETURN
      IF ( ALPHA(1).EQ.0.0D0 .AND. ALPHA(2).EQ.0.0D0 ) RETURN
C
      MRIGHT = LSAME('R',SIDE)
C
      IF ( INCX.EQ.1 .AND. INCY.EQ.1 ) THEN
        IF ( .NOT. MRIGHT ) THEN
          DO 10 I = 1,N
C           Hamilton Product
            Y(1,I) = Y(1,I) + ALPHA(1)*X(1,I) - ALPHA(2)*X(2,I)
            Y(2,I) = Y(2,I) + ALPHA(1)*X(2,I) + ALPHA(2)*X(1,I)
            Y(3,I) = Y(3,I) + ALPHA(1)*X(3,I) - ALPHA(2)*X(4,I)
            Y(4,I) = Y(4,I) + ALPHA(1)*X(4,I) + ALPHA(2)*X(3,I)
  10      CONTINUE
        ELSE
          DO 20 I = 1,N
C           Hamilton Product
            Y(1,I) = Y(1,I) + X(1,I)*ALPHA(1) - X(2,I)*ALPHA(2)
            Y(2,I) = Y(2,I) + X(1,I)*ALPHA(2) + X(2,I)*ALPHA(1)
            Y(3,I) = Y(3,I) + X(3,I)*ALPHA(1) + X(4,I)*ALPHA(2)
            Y(4,I) = Y(4,I) - X(3,I)*ALPHA(2) + X(4,I)*ALPHA(1)
  20      CONTINUE
        ENDIF
      ELSE

        IX = 1
        IY = 1
        IF ( INCX.LT.0 ) IX = (-N + 1)*INCX + 1
        IF ( INCY.LT.0 ) IY = (-N + 1)*INCY + 1

        IF ( .NOT. MRIGHT ) THEN
          DO 30 I = 1,N
C           Hamilton Product
            Y(1,IY) = Y(1,IY) + ALPHA(1)*X(1,IX) - ALPHA(2)*X(2,IX)
            Y(2,IY) = Y(2,IY) + ALPHA(1)*X(2,IX) + ALPHA(2)*X(1,IX)
            Y(3,IY) = Y(3,IY) + ALPHA(1)*X(3,IX) - ALPHA(2)*X(4,IX)
            Y(4,IY) = Y(4,IY) + ALPHA(1)*X(4,IX) + ALPHA(2)*X(3,IX)

            IX = IX + INCX
            IY = IY + INCY
  30      CONTINUE
        ELSE
          DO 40 I = 1,N
C           Hamilton Product
            Y(1,IY) = Y(1,IY) + X(1,IX)*ALPHA(1) - X(2,IX)*ALPHA(2)
            Y(2,IY) = Y(2,IY) + X(1,IX)*ALPHA(2) + X(2,IX)*ALPHA(1)
            Y(3,IY) = Y(3,IY) + X(3,IX)*ALPHA(1) + X(4,IX)*ALPHA(2)
            Y(4,IY) = Y(4,IY) - X(3,IX)*ALPHA(2) + X(4,IX)*ALPHA(1)

            IX = IX + INCX
            IY = IY + INCY
  40      CONTINUE
        ENDIF
      ENDIF
C
      END 
".
(** src/hblas/fortran/hblas1/haxpydh.f, all 45 lines *)
Definition src_haxpydh : string := "C 
C     This file is a part of HAXX
C     
C     Copyright (c) 2017 David Williams-Young
C     All rights reserved.
C     
C     See LICENSE.txt 
C
      Subroutine HAXPYDH(SIDE, N, ALPHA, X, INCX, Y, INCY)
C
      LOGICAL LSAME
      EXTERNAL LSAME
C
      CHARACTER SIDE
      INTEGER*4 N, INCX, INCY, I, IX, IY
      REAL*8    ALPHA, X(4,*), Y(4,*)
C
      IF ( N.LE.0 ) RETURN
      IF ( ALPHA.EQ.0.0D0 ) RETURN
C
      IF ( INCX.EQ.1 .AND. INCY.EQ.1 ) THEN
        DO 10 I = 1,N
          Y(1,I) = Y(1,I) + ALPHA*X(1,I)
          Y(2,I) = Y(2,I) + ALPHA*X(2,I)
          Y(3,I) = Y(3,I) + ALPHA*X(3,I)
          Y(4,I) = Y(4,I) + ALPHA*X(4,I)
  10    CONTINUE
      ELSE

        IX = 1
        IY = 1
        IF ( INCX.LT.0 ) IX = (-N + 1)*INCX + 1
        IF ( INCY.LT.0 ) IY = (-N + 1)*INCY + 1

        DO 20 I = 1,N
          Y(1,IY) = Y(1,IY) + ALPHA*X(1,IX)
          Y(2,IY) = Y(2,IY) + ALPHA*X(2,IX)
          Y(3,IY) = Y(3,IY) + ALPHA*X(3,IX)
          Y(4,IY) = Y(4,IY) + ALPHA*X(4,IX)
          IX = IX + INCX
          IY = IY + INCY
  20    CONTINUE
      ENDIF
C
      END
".
(** src/hblas/fortran/hblas1/haxpyhh.f, all 103 lines *)
Definition src_haxpyhh : string := "C 
C     This file is a part of HAXX
C     
C     Copyright (c) 2017 David Williams-Young
C     All rights reserved.
C     
C     See LICENSE.txt 
C
      Subroutine HAXPYHH(SIDE, N, ALPHA, X, INCX, Y, INCY)
C
      LOGICAL LSAME
      EXTERNAL LSAME
C
      LOGICAL   MRIGHT
      CHARACTER SIDE
      INTEGER*4 N, INCX, INCY, I, IX, IY
      REAL*8    ALPHA(4), X(4,*), Y(4,*)
C
      IF ( N.LE.0 ) RETURN
      IF ( ALPHA(1).EQ.0.0D0 .AND. ALPHA(2).EQ.0.0D0 .AND.
     $     ALPHA(3).EQ.0.0D0 .AND. ALPHA(4).EQ.0.0D0 ) RETURN
C
      MRIGHT = LSAME('R',SIDE)
C
      IF ( INCX.EQ.1 .AND. INCY.EQ.1 ) THEN
        IF ( .NOT. MRIGHT ) THEN
          DO 10 I = 1,N
C           Hamilton Product
            Y(1,I) = Y(1,I) + ALPHA(1)*X(1,I) - ALPHA(2)*X(2,I) -
     $                        ALPHA(3)*X(3,I) - ALPHA(4)*X(4,I)

            Y(2,I) = Y(2,I) + ALPHA(1)*X(2,I) + ALPHA(2)*X(1,I) +
     $                        ALPHA(3)*X(4,I) - ALPHA(4)*X(3,I)

            Y(3,I) = Y(3,I) + ALPHA(1)*X(3,I) - ALPHA(2)*X(4,I) +
     $                        ALPHA(3)*X(1,I) + ALPHA(4)*X(2,I)

            Y(4,I) = Y(4,I) + ALPHA(1)*X(4,I) + ALPHA(2)*X(3,I) -
     $                        ALPHA(3)*X(2,I) + ALPHA(4)*X(1,I)
  10      CONTINUE
        ELSE
          DO 20 I = 1,N
C           Hamilton Product
            Y(1,I) = Y(1,I) + X(1,I)*ALPHA(1) - X(2,I)*ALPHA(2) -
     $                        X(3,I)*ALPHA(3) - X(4,I)*ALPHA(4)
                                                     
            Y(2,I) = Y(2,I) + X(1,I)*ALPHA(2) + X(2,I)*ALPHA(1) +
     $                        X(3,I)*ALPHA(4) - X(4,I)*ALPHA(3)
                                                     
            Y(3,I) = Y(3,I) + X(1,I)*ALPHA(3) - X(2,I)*ALPHA(4) +
     $                        X(3,I)*ALPHA(1) + X(4,I)*ALPHA(2)
                                                     
            Y(4,I) = Y(4,I) + X(1,I)*ALPHA(4) + X(2,I)*ALPHA(3) -
     $                        X(3,I)*ALPHA(2) + X(4,I)*ALPHA(1)
  20      CONTINUE
        ENDIF
      ELSE

        IX = 1
        IY = 1
        IF ( INCX.LT.0 ) IX = (-N + 1)*INCX + 1
        IF ( INCY.LT.0 ) IY = (-N + 1)*INCY + 1

        IF ( .NOT. MRIGHT ) THEN
          DO 30 I = 1,N
C           Hamilton Product
            Y(1,IY) = Y(1,IY) + ALPHA(1)*X(1,IX) - ALPHA(2)*X(2,IX) -
     $                          ALPHA(3)*X(3,IX) - ALPHA(4)*X(4,IX)

            Y(2,IY) = Y(2,IY) + ALPHA(1)*X(2,IX) + ALPHA(2)*X(1,IX) +
     $                          ALPHA(3)*X(4,IX) - ALPHA(4)*X(3,IX)

            Y(3,IY) = Y(3,IY) + ALPHA(1)*X(3,IX) - ALPHA(2)*X(4,IX) +
     $                          ALPHA(3)*X(1,IX) + ALPHA(4)*X(2,IX)

            Y(4,IY) = Y(4,IY) + ALPHA(1)*X(4,IX) + ALPHA(2)*X(3,IX) -
     $                          ALPHA(3)*X(2,IX) + ALPHA(4)*X(1,IX)

            IX = IX + INCX
            IY = IY + INCY
  30      CONTINUE
        ELSE
          DO 40 I = 1,N
C           Hamilton Product
            Y(1,IY) = Y(1,IY) + X(1,IX)*ALPHA(1) - X(2,IX)*ALPHA(2) -
     $                          X(3,IX)*ALPHA(3) - X(4,IX)*ALPHA(4)
                                                     
            Y(2,IY) = Y(2,IY) + X(1,IX)*ALPHA(2) + X(2,IX)*ALPHA(1) +
     $                          X(3,IX)*ALPHA(4) - X(4,IX)*ALPHA(3)
                                                     
            Y(3,IY) = Y(3,IY) + X(1,IX)*ALPHA(3) - X(2,IX)*ALPHA(4) +
     $                          X(3,IX)*ALPHA(1) + X(4,IX)*ALPHA(2)
                                                     
            Y(4,IY) = Y(4,IY) + X(1,IX)*ALPHA(4) + X(2,IX)*ALPHA(3) -
     $                          X(3,IX)*ALPHA(2) + X(4,IX)*ALPHA(1)

            IX = IX + INCX
            IY = IY + INCY
  40      CONTINUE
        ENDIF
      ENDIF
C
      END 
".
(** src/hblas/fortran/hblas1/hdotc.f, all 60 lines *)
Definition src_hdotc : string := "C 
C     This file is a part of HAXX
C     
C     Copyright (c) 2017 David Williams-Young
C     All rights reserved.
C     
C     See LICENSE.txt 
C
      Subroutine HDOTC(R, N, X, INCX, Y, INCY)
C
      INTEGER*4 N, INCX, INCY, I,IX,IY
      REAL*8    X(4,*), Y(4,*), R(4)
C
      R(1) = 0.0D+0
      R(2) = 0.0D+0
      R(3) = 0.0D+0
      R(4) = 0.0D+0
C
      IF ( N.LE.0 ) RETURN
      IF ( INCX.EQ.1 .AND. INCY.EQ.1 ) THEN
        DO 10 I = 1,N
C         Hamilton Product
          R(1) = R(1) + X(1,I)*Y(1,I) + X(2,I)*Y(2,I) +
     $                  X(3,I)*Y(3,I) + X(4,I)*Y(4,I)

          R(2) = R(2) + X(1,I)*Y(2,I) - X(2,I)*Y(1,I) -
     $                  X(3,I)*Y(4,I) + X(4,I)*Y(3,I)

          R(3) = R(3) + X(1,I)*Y(3,I) + X(2,I)*Y(4,I) -
     $                  X(3,I)*Y(1,I) - X(4,I)*Y(2,I)

          R(4) = R(4) + X(1,I)*Y(4,I) - X(2,I)*Y(3,I) +
     $                  X(3,I)*Y(2,I) - X(4,I)*Y(1,I)
  10    CONTINUE
      ELSE

        IX = 1
        IY = 1
        IF ( INCX.LT.0 ) IX = (-N + 1)*INCX + 1
        IF ( INCY.LT.0 ) IY = (-N + 1)*INCY + 1

        DO 20 I = 1,N
C         Hamilton Product
          R(1) = R(1) + X(1,IX)*Y(1,IY) + X(2,IX)*Y(2,IY) +
     $                  X(3,IX)*Y(3,IY) + X(4,IX)*Y(4,IY)

          R(2) = R(2) + X(1,IX)*Y(2,IY) - X(2,IX)*Y(1,IY) -
     $                  X(3,IX)*Y(4,IY) + X(4,IX)*Y(3,IY)

          R(3) = R(3) + X(1,IX)*Y(3,IY) + X(2,IX)*Y(4,IY) -
     $                  X(3,IX)*Y(1,IY) - X(4,IX)*Y(2,IY)

          R(4) = R(4) + X(1,IX)*Y(4,IY) - X(2,IX)*Y(3,IY) +
     $                  X(3,IX)*Y(2,IY) - X(4,IX)*Y(1,IY)
          IX = IX + INCX
          IY = IY + INCY
  20    CONTINUE
      ENDIF
C
      END 
".
(** src/hblas/fortran/hblas1/hdotu.f, all 60 lines *)
Definition src_hdotu : string := "C 
C     This file is a part of HAXX
C     
C     Copyright (c) 2017 David Williams-Young
C     All rights reserved.
C     
C     See LICENSE.txt 
C
      Subroutine HDOTU(R, N, X, INCX, Y, INCY)
C
      INTEGER*4 N, INCX, INCY, I,IX,IY
      REAL*8    X(4,*), Y(4,*), R(4)
C
      R(1) = 0.0D+0
      R(2) = 0.0D+0
      R(3) = 0.0D+0
      R(4) = 0.0D+0
C
      IF ( N.LE.0 ) RETURN
      IF ( INCX.EQ.1 .AND. INCY.EQ.1 ) THEN
        DO 10 I = 1,N
C         Hamilton Product
          R(1) = R(1) + X(1,I)*Y(1,I) - X(2,I)*Y(2,I) -
     $                  X(3,I)*Y(3,I) - X(4,I)*Y(4,I)

          R(2) = R(2) + X(1,I)*Y(2,I) + X(2,I)*Y(1,I) +
     $                  X(3,I)*Y(4,I) - X(4,I)*Y(3,I)

          R(3) = R(3) + X(1,I)*Y(3,I) - X(2,I)*Y(4,I) +
     $                  X(3,I)*Y(1,I) + X(4,I)*Y(2,I)

          R(4) = R(4) + X(1,I)*Y(4,I) + X(2,I)*Y(3,I) -
     $                  X(3,I)*Y(2,I) + X(4,I)*Y(1,I)
  10    CONTINUE
      ELSE

        IX = 1
        IY = 1
        IF ( INCX.LT.0 ) IX = (-N + 1)*INCX + 1
        IF ( INCY.LT.0 ) IY = (-N + 1)*INCY + 1

        DO 20 I = 1,N
C         Hamilton Product
          R(1) = R(1) + X(1,IX)*Y(1,IY) - X(2,IX)*Y(2,IY) -
     $                  X(3,IX)*Y(3,IY) - X(4,IX)*Y(4,IY)

          R(2) = R(2) + X(1,IX)*Y(2,IY) + X(2,IX)*Y(1,IY) +
     $                  X(3,IX)*Y(4,IY) - X(4,IX)*Y(3,IY)

          R(3) = R(3) + X(1,IX)*Y(3,IY) - X(2,IX)*Y(4,IY) +
     $                  X(3,IX)*Y(1,IY) + X(4,IX)*Y(2,IY)

          R(4) = R(4) + X(1,IX)*Y(4,IY) + X(2,IX)*Y(3,IY) -
     $                  X(3,IX)*Y(2,IY) + X(4,IX)*Y(1,IY)
          IX = IX + INCX
          IY = IY + INCY
  20    CONTINUE
      ENDIF
C
      END 
".
(** src/hblas/fortran/hblas1/hscalc.f, all 64 lines *)
Definition src_hscalc : string := "C 
C     This file is a part of HAXX
C     
C     Copyright (c) 2017 David Williams-Young
C     All rights reserved.
C     
C     See LICENSE.txt 
C
      Subroutine HSCALC(SIDE, N, ALPHA, X, INCX)
C
      LOGICAL LSAME
      EXTERNAL LSAME
C
      LOGICAL    MRIGHT
      CHARACTER  SIDE
      INTEGER*4  N, INCX, I, IX
      COMPLEX*16 ALPHA, X(2,*)
C
      COMPLEX*16 HTMPS, HTMPJ
C
      IF ( N.LE.0 ) RETURN
      IF ( ABS(ALPHA).EQ.0.0D0  ) RETURN
C
      MRIGHT = LSAME('R',SIDE)
C
      IF ( INCX.EQ.1  ) THEN
        IF ( .NOT. MRIGHT ) THEN
          DO 10 I = 1,N
C           Hamilton Product
            X(1,I) = ALPHA * X(1,I)
            X(2,I) = ALPHA * X(2,I)
  10      CONTINUE
        ELSE
          DO 20 I = 1,N
C           Hamilton Product
            X(1,I) = X(1,I) * ALPHA
            X(2,I) = X(2,I) * CONJG(ALPHA)
  20      CONTINUE
        ENDIF
      ELSE

        IX = 1
        IF ( INCX.LT.0 ) IX = (-N + 1)*INCX + 1

        IF ( .NOT. MRIGHT ) THEN
          DO 30 I = 1,N
C           Hamilton Product
            X(1,IX) = ALPHA * X(1,IX)
            X(2,IX) = ALPHA * X(2,IX)

            IX = IX + INCX
  30      CONTINUE
        ELSE
          DO 40 I = 1,N
C           Hamilton Product
            X(1,IX) = X(1,IX) * ALPHA
            X(2,IX) = X(2,IX) * CONJG(ALPHA)

            IX = IX + INCX
  40      CONTINUE
        ENDIF
      ENDIF
C
      END 
".
(** src/hblas/fortran/hblas1/hscald.f, all 43 lines *)
Definition src_hscald : string := "C 
C     This file is a part of HAXX
C     
C     Copyright (c) 2017 David Williams-Young
C     All rights reserved.
C     
C     See LICENSE.txt 
C
      Subroutine HSCALD(SIDE, N, ALPHA, X, INCX)
C
      LOGICAL LSAME
      EXTERNAL LSAME
C
      CHARACTER SIDE
      INTEGER*4 N, INCX, I, IX
      REAL*8    ALPHA, X(4,*)
C
      IF ( N.LE.0 ) RETURN
      IF ( ALPHA.EQ.0.0D0 ) RETURN
C
      IF ( INCX.EQ.1 ) THEN
        DO 10 I = 1,N
          X(1,I) = ALPHA*X(1,I)
          X(2,I) = ALPHA*X(2,I)
          X(3,I) = ALPHA*X(3,I)
          X(4,I) = ALPHA*X(4,I)
  10    CONTINUE
      ELSE

        IX = 1
        IF ( INCX.LT.0 ) IX = (-N + 1)*INCX + 1

        DO 20 I = 1,N
          X(1,IX) = ALPHA*X(1,IX)
          X(2,IX) = ALPHA*X(2,IX)
          X(3,IX) = ALPHA*X(3,IX)
          X(4,IX) = ALPHA*X(4,IX)

          IX = IX + INCX
  20    CONTINUE
      ENDIF
C
      END
".
(** src/hblas/fortran/hblas1/hscalh.f, all 113 lines *)
Definition src_hscalh : string := "C 
C     This file is a part of HAXX
C     
C     Copyright (c) 2017 David Williams-Young
C     All rights reserved.
C     
C     See LICENSE.txt 
C
      Subroutine HSCALH(SIDE, N, ALPHA, X, INCX)
C
      LOGICAL LSAME
      EXTERNAL LSAME
C
      LOGICAL   MRIGHT
      CHARACTER SIDE
      INTEGER*4 N, INCX, I, IX
      REAL*8    ALPHA(4), X(4,*)
C
      REAL*8    HTMPS, HTMPI, HTMPJ
C
      IF ( N.LE.0 ) RETURN
      IF ( ALPHA(1).EQ.0.0D0 .AND. ALPHA(2).EQ.0.0D0 .AND.
     $     ALPHA(3).EQ.0.0D0 .AND. ALPHA(4).EQ.0.0D0 ) RETURN
C
      MRIGHT = LSAME('R',SIDE)
C
      IF ( INCX.EQ.1 ) THEN
        IF ( .NOT. MRIGHT ) THEN
          DO 10 I = 1,N
C           Hamilton Product
            HTMPS  = ALPHA(1)*X(1,I) - ALPHA(2)*X(2,I) -
     $               ALPHA(3)*X(3,I) - ALPHA(4)*X(4,I)

            HTMPI  = ALPHA(1)*X(2,I) + ALPHA(2)*X(1,I) +
     $               ALPHA(3)*X(4,I) - ALPHA(4)*X(3,I)

            HTMPJ  = ALPHA(1)*X(3,I) - ALPHA(2)*X(4,I) +
     $               ALPHA(3)*X(1,I) + ALPHA(4)*X(2,I)

            X(4,I) = ALPHA(1)*X(4,I) + ALPHA(2)*X(3,I) -
     $               ALPHA(3)*X(2,I) + ALPHA(4)*X(1,I)
            X(1,I) = HTMPS
            X(2,I) = HTMPI
            X(3,I) = HTMPJ
  10      CONTINUE
        ELSE
          DO 20 I = 1,N
C           Hamilton Product
            HTMPS  = X(1,I)*ALPHA(1) - X(2,I)*ALPHA(2) -
     $               X(3,I)*ALPHA(3) - X(4,I)*ALPHA(4)
                                            
            HTMPI  = X(1,I)*ALPHA(2) + X(2,I)*ALPHA(1) +
     $               X(3,I)*ALPHA(4) - X(4,I)*ALPHA(3)
                                            
            HTMPJ  = X(1,I)*ALPHA(3) - X(2,I)*ALPHA(4) +
     $               X(3,I)*ALPHA(1) + X(4,I)*ALPHA(2)
                                            
            X(4,I) = X(1,I)*ALPHA(4) + X(2,I)*ALPHA(3) -
     $               X(3,I)*ALPHA(2) + X(4,I)*ALPHA(1)
            X(1,I) = HTMPS
            X(2,I) = HTMPI
            X(3,I) = HTMPJ
  20      CONTINUE
        ENDIF
      ELSE

        IX = 1
        IF ( INCX.LT.0 ) IX = (-N + 1)*INCX + 1

        IF ( .NOT. MRIGHT ) THEN
          DO 30 I = 1,N
C           Hamilton Product
            HTMPS   = ALPHA(1)*X(1,IX) - ALPHA(2)*X(2,IX) -
     $                ALPHA(3)*X(3,IX) - ALPHA(4)*X(4,IX)
                  
            HTMPI   = ALPHA(1)*X(2,IX) + ALPHA(2)*X(1,IX) +
     $                ALPHA(3)*X(4,IX) - ALPHA(4)*X(3,IX)
                  
            HTMPJ   = ALPHA(1)*X(3,IX) - ALPHA(2)*X(4,IX) +
     $                ALPHA(3)*X(1,IX) + ALPHA(4)*X(2,IX)

            X(4,IX) = ALPHA(1)*X(4,IX) + ALPHA(2)*X(3,IX) -
     $                ALPHA(3)*X(2,IX) + ALPHA(4)*X(1,IX)
            X(1,IX) = HTMPS
            X(2,IX) = HTMPI
            X(3,IX) = HTMPJ

            IX = IX + INCX
  30      CONTINUE
        ELSE
          DO 40 I = 1,N
C           Hamilton Product
            HTMPS   = X(1,IX)*ALPHA(1) - X(2,IX)*ALPHA(2) -
     $                X(3,IX)*ALPHA(3) - X(4,IX)*ALPHA(4)
                                           
            HTMPI   = X(1,IX)*ALPHA(2) + X(2,IX)*ALPHA(1) +
     $                X(3,IX)*ALPHA(4) - X(4,IX)*ALPHA(3)
                                           
            HTMPJ   = X(1,IX)*ALPHA(3) - X(2,IX)*ALPHA(4) +
     $                X(3,IX)*ALPHA(1) + X(4,IX)*ALPHA(2)
                                           
            X(4,IX) = X(1,IX)*ALPHA(4) + X(2,IX)*ALPHA(3) -
     $                X(3,IX)*ALPHA(2) + X(4,IX)*ALPHA(1)
            X(1,IX) = HTMPS
            X(2,IX) = HTMPI
            X(3,IX) = HTMPJ

            IX = IX + INCX
  40      CONTINUE
        ENDIF
      ENDIF
C
      END 
".
